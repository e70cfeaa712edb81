(** Properties C18, C19, C54 and C55. *)
From Verif Require Import SeqModel SeqProofs ListProperties.

Definition eq_test (item : nat) : tests nat := mkTests item Nat.eqb None None (fun x => x) None None.
Definition eq_val (item : val) : tests val := mkTests item val_eqb None None (fun x => x) None None.

(** ** C18.  [selected p start end l] are the indices of [start, end) whose element passes the test. *)
(** What the caller asked for, as written in the call, and the argument block lisp/l/common.l builds from it. *)
Inductive criterion V := CEq (item : V) | CTest (f : V -> V -> bool) (item : V) | CTestNot (f : V -> V -> bool) (item : V)
  | CIf (f : V -> bool) | CIfNot (f : V -> bool).
Arguments CEq {V}. Arguments CTest {V}. Arguments CTestNot {V}. Arguments CIf {V}. Arguments CIfNot {V}.
Definition block {V} (eq : V -> V -> bool) (nil : V) (key : V -> V) (c : criterion V) : tests V :=
  match c with
  | CEq item => mkTests item eq None None key None None
  | CTest f item => mkTests item eq (Some f) None key None None
  | CTestNot f item => mkTests item eq None (Some f) key None None
  | CIf f => mkTests nil eq None None key (Some f) None
  | CIfNot f => mkTests nil eq None None key None (Some f)
  end.
Definition meets {V} (eq : V -> V -> bool) (key : V -> V) (c : criterion V) (x : V) : Prop :=
  match c with
  | CEq item => eq item (key x) = true
  | CTest f item => f item (key x) = true
  | CTestNot f item => f item (key x) = false
  | CIf f => f (key x) = true
  | CIfNot f => f (key x) = false
  end.

(** The indices used in all of C18 are, in increasing order, those in range whose element meets the caller's
    criterion. *)
Theorem C18_selected : forall V (eq : V -> V -> bool) nil key c s e l,
  StronglySorted lt (selected (testresult (block eq nil key c)) s e l) /\
  forall i, In i (selected (testresult (block eq nil key c)) s e l) <->
    s <= i < e /\ exists x, nth_error l i = Some x /\ meets eq key c x.
Proof.
  intros V eq nil key c s e l. split; [apply matches_sorted|]. intros i. unfold selected. rewrite matches_In, Nat.sub_0_r.
  assert (T : forall x, testresult (block eq nil key c) x = true <-> meets eq key c x).
  { intros x. destruct c; cbn; try tauto; apply negb_true_iff. }
  split.
  - intros (H & _ & x & N & P). split; [exact H|]. exists x. rewrite <- T. auto.
  - intros (H & x & N & P). split; [exact H|]. split; [lia|]. exists x. rewrite T. auto.
Qed.
Print Assumptions C18_selected.
Example C18_selected_ex : selected (testresult (block Nat.eqb 0 (fun x => x * 2) (CTestNot Nat.ltb 6))) 1 4 [1; 2; 3; 4; 1] = [1; 2].
Proof. reflexivity. Qed.

Theorem C18_position : forall V (t : tests V) l s e c,
  POSITION_list t l s e c = nth_error (selected (testresult t) s e l) (c - 1) /\
  POSITION_vec t l s e c = nth_error (selected (testresult t) s e l) (c - 1).
Proof. intros. split; [apply POSITION_list_ok|apply POSITION_vec_ok]. Qed.
Print Assumptions C18_position.
Example C18_position_ex : selected (testresult (eq_test 3)) 1 5 [3; 1; 3; 2; 3; 3] = [2; 4] /\
  POSITION_vec (eq_test 3) [3; 1; 3; 2; 3; 3] 1 5 2 = Some 4.
Proof. split; reflexivity. Qed.

Theorem C18_find : forall V (t : tests V) l s e,
  FIND_list t l s e = match selected (testresult t) s e l with [] => None | i :: _ => nth_error l i end /\
  FIND_vec t l s e = match selected (testresult t) s e l with [] => None | i :: _ => nth_error l i end.
Proof. intros. split; [apply FIND_list_ok|apply FIND_vec_ok]. Qed.
Print Assumptions C18_find.
Definition odd_test : tests nat := mkTests 0 Nat.eqb None None (fun x => x) (Some Nat.odd) None.
Example C18_find_ex : FIND_list odd_test [1; 2; 4; 7; 9] 1 5 = Some 7.
Proof. reflexivity. Qed.

Theorem C18_count_partial : forall V (t : tests V) l s e,
  COUNT_vec t l s e = Some (length (selected (testresult t) s e l)) /\
  (l = [] \/ s < length l -> COUNT_list t l s e = Some (length (selected (testresult t) s e l))).
Proof. intros. split; [apply COUNT_vec_ok|apply COUNT_list_ok]. Qed.
Print Assumptions C18_count_partial.
Example C18_count_ex : COUNT_list (eq_test 3) [3; 1; 3; 2; 3; 3] 1 5 = Some 2.
Proof. reflexivity. Qed.
(** (count 1 '(1 2) :start 2) is NIL, not 0 *)
Theorem C18_count_refuted : exists (t : tests nat) l s e, s <= e <= length l /\
  COUNT_list t l s e <> Some (length (selected (testresult t) s e l)).
Proof. exists (eq_test 1), [1; 2], 2, 2. split; [cbn; lia|discriminate]. Qed.
Print Assumptions C18_count_refuted.

Theorem C18_remove_list : forall V (t : tests V) l s e c, e <= length l ->
  UNIREMOVE_list t l s e c = Ret (without (firstn c (selected (testresult t) s e l)) 0 l).
Proof. exact @UNIREMOVE_list_ok. Qed.
Print Assumptions C18_remove_list.
Example C18_remove_list_ex : UNIREMOVE_list (eq_test 3) [3; 1; 3; 2; 3; 3] 1 6 2 = Ret [3; 1; 2; 3].
Proof. reflexivity. Qed.

Theorem C18_remove_vec_partial : forall V (t : tests V) l s e c, s <= Nat.min e (length l) ->
  length (selected (testresult t) s e l) < c ->
  UNIREMOVE_vec t l s e c = Ret (without (firstn c (selected (testresult t) s e l)) 0 l).
Proof. exact @UNIREMOVE_vec_ok. Qed.
Print Assumptions C18_remove_vec_partial.
Example C18_remove_vec_ex : UNIREMOVE_vec (eq_test 3) [3; 1; 3; 2; 3; 3] 1 5 1000 = Ret [3; 1; 2; 3] /\
  length (selected (testresult (eq_test 3)) 1 5 [3; 1; 3; 2; 3; 3]) < 1000.
Proof. split; [reflexivity|cbn; lia]. Qed.
(** (remove 1 #(1 2 3) :count 1) is #() *)
Theorem C18_remove_vec_refuted : exists (t : tests nat) l s e c, s <= e <= length l /\
  UNIREMOVE_vec t l s e c <> Ret (without (firstn c (selected (testresult t) s e l)) 0 l).
Proof. exists (eq_test 1), [1; 2; 3], 0, 3, 1. split; [cbn; lia|discriminate]. Qed.
Print Assumptions C18_remove_vec_refuted.

Theorem C18_substitute_list : forall V (t : tests V) new l s e c, e <= length l ->
  SUBSTITUTE_list t new l s e c = Ret (replaced (firstn c (selected (testresult t) s e l)) new 0 l).
Proof. exact @SUBSTITUTE_list_ok. Qed.
Print Assumptions C18_substitute_list.
Theorem C18_substitute_vec_partial : forall V (t : tests V) new l s e c, s <= Nat.min e (length l) ->
  length (selected (testresult t) s e l) < c ->
  SUBSTITUTE_vec t new l s e c = Ret (replaced (firstn c (selected (testresult t) s e l)) new 0 l).
Proof. exact @SUBSTITUTE_vec_ok. Qed.
Print Assumptions C18_substitute_vec_partial.
Example C18_substitute_ex : SUBSTITUTE_list (eq_test 3) 8 [3; 1; 3; 2; 3; 3] 1 6 2 = Ret [3; 1; 8; 2; 8; 3] /\
  SUBSTITUTE_vec (eq_test 3) 8 [3; 1; 3; 2; 3; 3] 1 5 100 = Ret [3; 1; 8; 2; 8; 3].
Proof. split; reflexivity. Qed.
(** (substitute 8 1 #(1 2 3) :count 1) is #(8) *)
Theorem C18_substitute_vec_refuted : exists (t : tests nat) new l s e c, s <= e <= length l /\
  SUBSTITUTE_vec t new l s e c <> Ret (replaced (firstn c (selected (testresult t) s e l)) new 0 l).
Proof. exists (eq_test 1), 8, [1; 2; 3], 0, 3, 1. split; [cbn; lia|discriminate]. Qed.
Print Assumptions C18_substitute_vec_refuted.

Theorem C18_nsubstitute_vec : forall V (t : tests V) new l s e c,
  NSUBSTITUTE_vec t new l s e c = replaced (firstn c (selected (testresult t) s e l)) new 0 l.
Proof. exact @NSUBSTITUTE_vec_ok. Qed.
Print Assumptions C18_nsubstitute_vec.
Theorem C18_nsubstitute_list : forall (t : tests val) new h v cells s e c, is_list h v cells -> s <= length cells -> e <= length cells ->
  exists h', NSUBSTITUTE_list t new h v s e c = Ret (h', v) /\ is_list h' v cells /\ same_outside cells h h' /\
    elems h' cells = replaced (firstn c (selected (testresult t) s e (elems h cells))) new 0 (elems h cells).
Proof. exact NSUBSTITUTE_list_ok. Qed.
Print Assumptions C18_nsubstitute_list.
Example C18_nsubstitute_ex : NSUBSTITUTE_vec (eq_test 3) 8 [3; 1; 3; 2; 3; 3] 1 6 2 = [3; 1; 8; 2; 8; 3] /\
  view (NSUBSTITUTE_list (eq_val (Atom 2)) Nil demo_heap (Ptr 0) 0 3 9) =
  Some ([(Atom 1, Ptr 1); (Nil, Ptr 2); (Atom 3, Nil); (Atom 4, Ptr 4); (Atom 5, Nil); (Ptr 0, Ptr 6); (Atom 9, Ptr 7); (Ptr 3, Nil)], Ptr 0).
Proof. split; reflexivity. Qed.

Theorem C18_delete_list_partial : forall (t : tests val) h v cells s e c, is_list h v cells -> s <= length cells -> e <= length cells ->
  (s = 0 \/ forall x, nth_error (elems h cells) s = Some x -> testresult t x = false) ->
  let gone := firstn c (selected (testresult t) s e (elems h cells)) in
  exists h' r, DELETE_list t h v s e c = Ret (h', r) /\ is_list h' r (without gone 0 cells) /\
    elems h' (without gone 0 cells) = without gone 0 (elems h cells) /\ same_outside cells h h'.
Proof. exact DELETE_list_ok. Qed.
Print Assumptions C18_delete_list_partial.
Example C18_delete_ex :
  view (DELETE_list (eq_val (Atom 2)) demo_heap (Ptr 0) 0 3 9) =
  Some ([(Atom 1, Ptr 2); (Atom 2, Ptr 2); (Atom 3, Nil); (Atom 4, Ptr 4); (Atom 5, Nil); (Ptr 0, Ptr 6); (Atom 9, Ptr 7); (Ptr 3, Nil)], Ptr 0).
Proof. reflexivity. Qed.
(** (delete 2 '(1 2 3) :start 1) leaves (1 2 3) *)
Theorem C18_delete_list_refuted : exists (t : tests val) h v cells s e c h' r cells', is_list h v cells /\ s <= e <= length cells /\
  DELETE_list t h v s e c = Ret (h', r) /\ is_list h' r cells' /\
  elems h' cells' <> without (firstn c (selected (testresult t) s e (elems h cells))) 0 (elems h cells).
Proof.
  exists (eq_val (Atom 2)), demo_heap, (Ptr 0), [0; 1; 2], 1, 3, 9. do 2 eexists. exists [0; 1; 2].
  split; [cbn; auto|]. split; [cbn; lia|]. split; [reflexivity|]. split; [cbn; auto|]. vm_compute. discriminate.
Qed.
Print Assumptions C18_delete_list_refuted.

Theorem C18_delete_vec_partial : forall V (t : tests V) l s e c, s <= length l -> length l <= e ->
  length (selected (testresult t) s e l) < c ->
  DELETE_vec t l s e c = without (firstn c (selected (testresult t) s e l)) 0 l.
Proof. exact @DELETE_vec_ok. Qed.
Print Assumptions C18_delete_vec_partial.
Example C18_delete_vec_ex : DELETE_vec (eq_test 3) [3; 1; 3; 2; 3; 4] 1 6 100 = [3; 1; 2; 4].
Proof. reflexivity. Qed.
(** (delete 1 #(1 2 3) :count 1) is #(), (delete 1 #(1 2 3) :end 1) is #() *)
Theorem C18_delete_vec_refuted : exists (t : tests nat) l,
  DELETE_vec t l 0 3 1 <> without (firstn 1 (selected (testresult t) 0 3 l)) 0 l /\
  DELETE_vec t l 0 1 9 <> without (firstn 9 (selected (testresult t) 0 1 l)) 0 l /\ length l = 3.
Proof. exists (eq_test 1), [1; 2; 3]. split; [discriminate|]. split; [discriminate|reflexivity]. Qed.
Print Assumptions C18_delete_vec_refuted.

(** ** C19 sort.  [R] is the order the predicate decides: for a reflexive predicate such as <= take
    [R x y := pred x y = true], for a strict one such as < take [R x y := pred y x = false]. *)
Theorem C19_sort_vector : forall V (pred : V -> V -> bool) key (R : V -> V -> Prop) v,
  (forall x y, pred x y = true -> R x y) -> (forall x y, pred x y = false -> R y x) -> (forall x y z, R x y -> R y z -> R x z) ->
  Permutation (SORT_vec pred key v) v /\ StronglySorted (fun x y => R (key x) (key y)) (SORT_vec pred key v).
Proof.
  intros V pred key R v P1 P2 Tr.
  exact (qsort_ok (fun x y => pred (key x) (key y)) (fun x y => R (key x) (key y)) v
    (fun x y => P1 (key x) (key y)) (fun x y => P2 (key x) (key y)) (fun x y z => Tr (key x) (key y) (key z))).
Qed.
Print Assumptions C19_sort_vector.
Theorem C19_sort_list : forall h v cells fuel pred key (R : val -> val -> Prop), is_list h v cells -> length cells <= fuel ->
  (forall x y, pred x y = true -> R x y) -> (forall x y, pred x y = false -> R y x) -> (forall x y z, R x y -> R y z -> R x z) ->
  exists h', SORT_list fuel pred key h v = Ret (h', v) /\ is_list h' v cells /\ same_outside cells h h' /\
    Permutation (elems h' cells) (elems h cells) /\ StronglySorted (fun x y => R (key x) (key y)) (elems h' cells).
Proof.
  intros h v cells fuel pred key R L F P1 P2 Tr. destruct (SORT_list_ok h v cells fuel pred key L F) as [h' [E [L' [So El]]]].
  exists h'. split; [exact E|]. split; [exact L'|]. split; [exact So|]. rewrite El. apply C19_sort_vector; assumption.
Qed.
Print Assumptions C19_sort_list.
Example C19_orders : (forall x y, (x <=? y) = true -> x <= y) /\ (forall x y, (x <=? y) = false -> y <= x) /\
  (forall x y, (x <? y) = true -> x <= y) /\ (forall x y, (x <? y) = false -> y <= x).
Proof.
  repeat split; intros x y; destruct (Nat.leb_spec x y); destruct (Nat.ltb_spec x y); intro; try discriminate; lia.
Qed.
Example C19_sort_ex : SORT_vec Nat.ltb (fun x => x) [5; 2; 9; 2; 7; 1; 8] = [1; 2; 2; 5; 7; 8; 9].
Proof. reflexivity. Qed.
(** (sort (string with codes 100 and 200) #'<) puts 200 before 100: elements are read as signed chars *)
Theorem C19_sort_string_refuted : exists s, Forall (fun b => 0 <= b < 256)%Z s /\ ~ StronglySorted Z.le (SORT_string Z.ltb (fun x => x) s).
Proof.
  exists [100; 200]%Z. split; [repeat constructor; lia|]. replace (SORT_string Z.ltb (fun x => x) [100; 200]%Z) with [200; 100]%Z by reflexivity.
  intro H. inversion_clear H as [|? ? _ F]. inversion_clear F. lia.
Qed.
Print Assumptions C19_sort_string_refuted.
(** for codes below 128 the order is right *)
Theorem C19_sort_string_partial : forall (s : list Z), Forall (fun b => 0 <= b < 128)%Z s ->
  Permutation (SORT_string Z.ltb (fun x => x) s) s /\ StronglySorted Z.le (SORT_string Z.ltb (fun x => x) s).
Proof.
  intros s F.
  destruct (qsort_ok (fun x y => (schar x <? schar y)%Z) (fun x y => (schar x <= schar y)%Z) s) as [P S].
  - intros x y. destruct (Z.ltb_spec (schar x) (schar y)); intro; try discriminate; lia.
  - intros x y. destruct (Z.ltb_spec (schar x) (schar y)); intro; try discriminate; lia.
  - intros; lia.
  - split; [exact P|]. unfold SORT_string. set (r := qsort _ s) in *. assert (Fr : Forall (fun b => 0 <= b < 128)%Z r) by (eapply Permutation_Forall; [apply Permutation_sym, P|exact F]).
    clear P F. induction S as [|x l S' IH Fx]; [constructor|]. inversion_clear Fr as [|? ? B Fr']. constructor; [auto|].
    rewrite Forall_forall in *. intros y Hy. specialize (Fx y Hy). specialize (Fr' y Hy). unfold schar in Fx. cbn beta in *. destruct (Z.ltb_spec x 128), (Z.ltb_spec y 128); lia.
Qed.
Print Assumptions C19_sort_string_partial.
Example C19_sort_string_ex : SORT_string Z.ltb (fun x => x) [100; 65; 97]%Z = [65; 97; 100]%Z.
Proof. reflexivity. Qed.

Theorem C19_merge_vector : forall V (pred : V -> V -> bool) (R : V -> V -> Prop) s1 s2,
  (forall x y, pred x y = true -> R x y) -> (forall x y, pred x y = false -> R y x) -> (forall x y z, R x y -> R y z -> R x z) ->
  StronglySorted R s1 -> StronglySorted R s2 ->
  Permutation (merge_vec pred s1 s2) (s1 ++ s2) /\ StronglySorted R (merge_vec pred s1 s2).
Proof. intros V pred R s1 s2 P1 P2 Tr S1 S2. split; [apply merge_perm|apply merge_sorted; assumption]. Qed.
Print Assumptions C19_merge_vector.
Theorem C19_merge_list_partial : forall V (nil : V) pred (R : V -> V -> Prop) l1 l2,
  (forall x y, pred x y = true -> R x y) -> (forall x y, pred x y = false -> R y x) -> (forall x y z, R x y -> R y z -> R x z) ->
  l1 <> [] -> StronglySorted R l1 -> StronglySorted R l2 -> (forall y, In y l2 -> pred (last l1 nil) y = false) ->
  exists r, merge_list nil (fun x y => Some (pred x y)) l1 l2 = Ret r /\ Permutation r (l1 ++ l2) /\ StronglySorted R r.
Proof. intros V nil pred R l1 l2 P1 P2 Tr. exact (merge_list_ok nil pred R P1 P2 Tr l1 l2). Qed.
Print Assumptions C19_merge_list_partial.
(** numbers, with [None] for NIL on which < signals an error *)
Definition lt_or_error (x y : option nat) : option bool := match x, y with Some a, Some b => Some (a <? b) | _, _ => None end.
Example C19_merge_ex : merge_list None lt_or_error [Some 2; Some 5; Some 9] [Some 1; Some 4; Some 6] = Ret [Some 1; Some 2; Some 4; Some 5; Some 6; Some 9] /\
  merge_vec Nat.ltb [2; 5] [1; 4; 9] = [1; 2; 4; 5; 9].
Proof. split; reflexivity. Qed.
(** (merge cons '(1 2) '(3) #'<) compares NIL with 3 *)
Theorem C19_merge_list_refuted : merge_list None lt_or_error [Some 1; Some 2] [Some 3] = Error /\ merge_list None lt_or_error [] [Some 3] = Error.
Proof. split; reflexivity. Qed.
Print Assumptions C19_merge_list_refuted.

(** ** C54 replace *)
Theorem C54_replace_vector_partial : forall V bit (dest : list V) src ds de ss se,
  let s := match src with Some s => s | None => dest end in
  let count := Nat.min (de - ds) (se - ss) in
  ds <= de <= length dest -> ss <= se <= length s ->
  (bit = true \/ src <> None \/ ss + count <= ds \/ ds + count <= ss) ->
  exists d, VECREPLACE bit dest src ds de ss se = Ret d /\ length d = length dest /\
    forall i, nth_error d i = if (ds <=? i) && (i <? ds + count) then nth_error s (ss + (i - ds)) else nth_error dest i.
Proof. exact @VECREPLACE_ok. Qed.
Print Assumptions C54_replace_vector_partial.
Example C54_replace_ex : VECREPLACE false [1; 2; 3; 4; 5] (Some [7; 8; 9]) 1 5 0 3 = Ret [1; 7; 8; 9; 5] /\
  VECREPLACE true [1; 0; 0; 1; 1] None 1 5 0 4 = Ret [1; 1; 0; 0; 1].
Proof. split; reflexivity. Qed.
(** (replace v v :start1 1 :start2 0): memcpy on overlapping ranges; and ranges are not checked *)
Theorem C54_replace_vector_refuted : exists dest : list nat,
  VECREPLACE false dest None 1 3 0 2 = Undef /\ VECREPLACE false dest (Some dest) 0 5 0 5 = Undef /\ length dest = 3.
Proof. exists [1; 2; 3]. repeat split. Qed.
Print Assumptions C54_replace_vector_refuted.
Theorem C54_replace_list_partial : forall h dest src C1 C2 s1 e1 s2 e2, is_list h dest C1 -> is_list h src C2 ->
  s1 <= e1 <= length C1 -> s2 <= e2 <= length C2 -> (Z.of_nat (length C1) < 2147483648)%Z -> (Z.of_nat (length C2) < 2147483648)%Z ->
  let n := Nat.min (e1 - s1) (e2 - s2) in
  let D := firstn n (skipn s1 C1) in let S := firstn n (skipn s2 C2) in
  (forall i j x, i < j -> nth_error D i = Some x -> nth_error S j <> Some x) ->
  exists h', replace_list h dest src s1 e1 s2 e2 = Ret (h', dest) /\ is_list h' dest C1 /\ is_list h' src C2 /\ same_outside D h h' /\ elems h' D = elems h S.
Proof. exact replace_list_ok. Qed.
Print Assumptions C54_replace_list_partial.
Example C54_replace_list_ex : view (replace_list demo_heap (Ptr 0) (Ptr 3) 1 3 0 2) =
  Some ([(Atom 1, Ptr 1); (Atom 4, Ptr 2); (Atom 5, Nil); (Atom 4, Ptr 4); (Atom 5, Nil); (Ptr 0, Ptr 6); (Atom 9, Ptr 7); (Ptr 3, Nil)], Ptr 0).
Proof. reflexivity. Qed.
(** (let ((l (list 1 2 3))) (replace l l :start1 1 :start2 0)) is (1 1 1), not (1 1 2) *)
Theorem C54_replace_list_refuted : exists h v cells h', is_list h v cells /\ elems h cells = [Atom 1; Atom 2; Atom 3] /\
  replace_list h v v 1 3 0 3 = Ret (h', v) /\ elems h' cells = [Atom 1; Atom 1; Atom 1].
Proof. exists demo_heap, (Ptr 0), [0; 1; 2]. eexists. split; [cbn; auto|]. split; [reflexivity|]. split; reflexivity. Qed.
Print Assumptions C54_replace_list_refuted.

(** ** C55 sets.  [same t x y]: test and key make x and y one element. *)
Theorem C55_intersection : forall V (t : tests V) l1 l2 x,
  In x (intersection t l1 l2) <-> In x l1 /\ exists y, In y l2 /\ same t x y = true.
Proof. intros V t l1 l2 x. rewrite intersection_ok, <- in_rev, filter_In, existsb_exists. reflexivity. Qed.
Print Assumptions C55_intersection.
Theorem C55_set_difference : forall V (t : tests V) l1 l2 x,
  In x (set_difference t l1 l2) <-> In x l1 /\ ~ exists y, In y l2 /\ same t x y = true.
Proof.
  intros V t l1 l2 x. rewrite set_difference_ok, filter_In. rewrite <- existsb_exists. destruct (existsb (same t x) l2); cbn; intuition congruence.
Qed.
Print Assumptions C55_set_difference.
Theorem C55_union : forall V (t : tests V) l1 l2, (forall x, same t x x = true) -> (forall x y z, same t x y = true -> same t y z = true -> same t x z = true) ->
  (forall x y, same t x y = true -> same t y x = true) ->
  (forall x, In x (union t l1 l2) -> In x l1 \/ In x l2) /\
  (forall x, In x l1 \/ In x l2 -> exists y, In y (union t l1 l2) /\ same t x y = true) /\
  ForallOrdPairs (fun x y => same t x y = false) (union t l1 l2).
Proof. exact @union_ok. Qed.
Print Assumptions C55_union.
(** parity as the test: 1, 3, 5 are one element *)
Definition parity : tests nat := mkTests 0 Nat.eqb None None (fun x => Nat.modulo x 2) None None.
Example C55_union_ex : union (eq_test 0) [1; 2; 1] [2; 3] = [1; 2; 3] /\ union parity [1; 3] [5; 4] = [1; 4] /\
  intersection (eq_test 0) [1; 2; 3] [3; 5; 1] = [3; 1] /\ set_difference parity [1; 2; 3] [7] = [2] /\
  (forall x y z, same parity x y = true -> same parity y z = true -> same parity x z = true).
Proof. do 4 (split; [reflexivity|]). intros x y z H1 H2. apply Nat.eqb_eq in H1. apply Nat.eqb_eq in H2. apply Nat.eqb_eq. congruence. Qed.
(** adjoin tests the item without applying the key to it: right when the key does not change the item *)
Theorem C55_adjoin_partial : forall V (t : tests V) item l, t_key t item = item -> (forall x, same t x x = true) ->
  (forall x, In x (adjoin t item l) -> x = item \/ In x l) /\ (forall x, In x l -> In x (adjoin t item l)) /\
  (exists y, In y (adjoin t item l) /\ same t item y = true) /\
  ((exists y, In y l /\ same t item y = true) -> adjoin t item l = l).
Proof.
  intros V t item l K Rf. assert (A : adjoin t item l = if existsb (same t item) l then l else item :: l) by (unfold adjoin; rewrite <- member_of_key, K; reflexivity). rewrite A. clear A. destruct (existsb (same t item) l) eqn:E.
  - split; [auto|]. split; [auto|]. split; [apply existsb_exists; exact E|auto].
  - split; [intros x [->|H]; auto|]. split; [intros x H; right; exact H|]. split; [exists item; split; [left; reflexivity|apply Rf]|].
    intro H. apply existsb_exists in H. congruence.
Qed.
Print Assumptions C55_adjoin_partial.
Example C55_adjoin_ex : adjoin (eq_test 0) 3 [1; 2] = [3; 1; 2] /\ adjoin (eq_test 0) 2 [1; 2] = [1; 2].
Proof. split; reflexivity. Qed.
(** (adjoin 3 '(1) :key #'parity) adds 3 although 1 has the same key *)
Theorem C55_adjoin_refuted : exists (t : tests nat) item l, (exists y, In y l /\ same t item y = true) /\ adjoin t item l <> l.
Proof. exists parity, 3, [1]. split; [exists 1; split; [left|]; reflexivity|discriminate]. Qed.
Print Assumptions C55_adjoin_refuted.
Theorem C55_set_exclusive_or_partial : forall V (t : tests V) l1 l2, (forall x, t_key t x = x) ->
  forall x, In x (set_exclusive_or t l1 l2) <-> (In x l1 /\ existsb (same t x) l2 = false) \/ (In x l2 /\ existsb (same t x) l1 = false).
Proof. exact @set_exclusive_or_ok. Qed.
Print Assumptions C55_set_exclusive_or_partial.
Example C55_set_exclusive_or_ex : set_exclusive_or (eq_test 0) [1; 2] [2; 3] = [1; 3].
Proof. reflexivity. Qed.
(** with a key the result holds keys instead of elements *)
Theorem C55_set_exclusive_or_refuted : exists (t : tests nat) l1 l2 x, In x (set_exclusive_or t l1 l2) /\ ~ In x l1 /\ ~ In x l2.
Proof. exists parity, [3], [2], 1. cbn. split; [auto|]. split; intros [H|[]]; discriminate. Qed.
Print Assumptions C55_set_exclusive_or_refuted.

(** remove-duplicates; [d] is the part of the sequence examined *)
Theorem C55_remove_duplicates : forall V (t : tests V) l s e, s <= Nat.min e (length l) ->
  (forall x, same t x x = true) -> (forall x y z, same t x y = true -> same t y z = true -> same t x z = true) ->
  exists d, REMOVE_DUPLICATES_list t l s e = firstn s l ++ d ++ skipn e l /\ REMOVE_DUPLICATES_vec t l s e = firstn s l ++ d ++ skipn e l /\
    (forall x, In x d -> In x (firstn (e - s) (skipn s l))) /\
    (forall x, In x (firstn (e - s) (skipn s l)) -> exists y, In y d /\ same t x y = true) /\
    ForallOrdPairs (fun x y => same t x y = false) d.
Proof.
  intros V t l s e H Rf Tr. exists (last_ones (same t) (firstn (e - s) (skipn s l))).
  split; [apply REMOVE_DUPLICATES_list_ok; lia|]. split; [apply REMOVE_DUPLICATES_vec_ok; exact H|].
  split; [intros x; apply last_ones_in|]. split; [apply last_ones_covers; assumption|apply last_ones_distinct].
Qed.
Print Assumptions C55_remove_duplicates.
Example C55_remove_duplicates_ex : REMOVE_DUPLICATES_list (eq_test 0) [1; 2; 1; 3; 2; 4] 0 6 = [1; 3; 2; 4] /\
  REMOVE_DUPLICATES_vec parity [1; 2; 1; 3; 2; 4] 1 4 = [1; 2; 3; 2; 4].
Proof. split; reflexivity. Qed.
