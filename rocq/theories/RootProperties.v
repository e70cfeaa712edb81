(** Property C84: a garbage collection at any allocation inside a list primitive does not disturb it. *)
From Coq Require Import List Arith Bool Lia.
From Verif Require SeqModel SeqProofs.
From Verif Require Import RootModel RootSpec RootProofs RootProofs2 RootProofs3 RootWitness.
Import ListNotations.

(** ** C84.  For every collector that keeps what its roots reach, whenever it runs and whatever it frees, each primitive
    below never touches a freed cell, leaves the stack and everything its caller can reach as it was, and returns what it
    should, all of it allocated.  It can only fail when memory runs out, when a function called back fails, or (where
    stated) on wrong arguments. *)

Theorem C84_cons : forall env glob s a d, keeps env -> sound glob s -> In a (arg s) -> In d (arg s) ->
  behaves glob (oom env) (fun h v => exists c, v = Ptr c /\ h c = Some (Cons a d)) s (cons env glob a d s).
Proof.
  intros env glob s a d K L Ha Hd. apply leaves_behaves. apply (wp_cons env glob (oom env) K (fun x => x)).
  - eapply live_incl; [|exact L]. intros x [<-|[<-|Hx]]; [| |exact Hx]; apply arg_roots; assumption.
  - intros c s' E1 E2 E3 Sm Ec L'. split; [exact E1|split; [exact E2|split; [|split; [|eauto]]]].
    + eapply same_cover; [|exact Sm]. apply cover_incl. unfold roots. inc.
    + eapply live_incl; [|exact L']. inc.
Qed.
Print Assumptions C84_cons.

Theorem C84_list : forall env glob s, keeps env -> sound glob s ->
  behaves glob (oom env) (fun h v => lst h v (arg s)) s (LIST env glob (length (arg s)) s).
Proof. intros. apply leaves_behaves. apply LIST_ok; auto. Qed.
Print Assumptions C84_list.

Theorem C84_list_star : forall env glob s l t, keeps env -> sound glob s -> arg s = l ++ [t] ->
  behaves glob (oom env) (fun h v => chain h v l t) s (LIST_STAR env glob (length (arg s)) s).
Proof. intros. apply leaves_behaves. apply LIST_STAR_ok; auto. Qed.
Print Assumptions C84_list_star.

Theorem C84_append : forall env glob fuel s vs t ls, keeps env -> sound glob s -> arg s = vs ++ [t] ->
  Forall2 (lst (hp s)) vs ls -> (forall l, In l ls -> length l < fuel) ->
  behaves glob (oom env) (fun h v => chain h v (concat ls) t) s (APPEND env glob fuel (length (arg s)) s).
Proof. intros. apply leaves_behaves. eapply APPEND_ok; eauto. Qed.
Print Assumptions C84_append.

Theorem C84_subst : forall env glob fuel s x y z X Y Z, keeps env -> sound glob s -> arg s = [x; y; z] ->
  rep (hp s) x X -> rep (hp s) y Y -> rep (hp s) z Z -> depth Z < fuel ->
  behaves glob (oom env) (fun h v => rep h v (tsubst X Y Z)) s (SUBST env glob fuel s).
Proof. intros. apply leaves_behaves. eapply SUBST_ok; eauto. Qed.
Print Assumptions C84_subst.

Theorem C84_butlast : forall env glob fuel n s a l t, keeps env -> sound glob s -> nth_error (arg s) 0 = Some a ->
  chain (hp s) a l t -> ends (hp s) t -> (l = [] -> t = Nil) -> length l < fuel ->
  behaves glob (oom env) (fun h v => lst h v (firstn (length l - n) l)) s (BUTLAST env glob fuel n s).
Proof. intros. apply leaves_behaves. eapply BUTLAST_ok; eauto. Qed.
Print Assumptions C84_butlast.

Theorem C84_subseq : forall env glob fuel st e s a l t, keeps env -> sound glob s -> nth_error (arg s) 0 = Some a ->
  chain (hp s) a l t -> ends (hp s) t -> l <> [] -> length l < fuel ->
  behaves glob (oom env \/ length l <= st \/ exists e', e = Some e' /\ e' < st)
    (fun h v => lst h v (match e with Some e' => firstn (e' - st) (skipn st l) | None => skipn st l end)) s
    (SUBSEQ env glob fuel st e s).
Proof. intros. apply leaves_behaves. eapply SUBSEQ_ok; eauto. Qed.
Print Assumptions C84_subseq.

Theorem C84_copy_seq : forall env glob fuel s a l t, keeps env -> sound glob s -> nth_error (arg s) 0 = Some a ->
  chain (hp s) a l t -> ends (hp s) t -> length l < fuel ->
  behaves glob (oom env) (fun h v => lst h v l) s (COPYSEQ env glob fuel s).
Proof. intros. apply leaves_behaves. eapply COPYSEQ_ok; eauto. Qed.
Print Assumptions C84_copy_seq.

Theorem C84_reverse : forall env glob fuel s a l t, keeps env -> sound glob s -> nth_error (arg s) 0 = Some a ->
  chain (hp s) a l t -> ends (hp s) t -> length l < fuel ->
  behaves glob (oom env) (fun h v => lst h v (rev l)) s (REVERSE env glob fuel s).
Proof. intros. apply leaves_behaves. eapply REVERSE_ok; eauto. Qed.
Print Assumptions C84_reverse.

(** into a list, into objects of a subclass of cons, into a vector *)
Theorem C84_concatenate : forall env glob fuel s ls ty, keeps env -> sound glob s -> Forall2 (lst (hp s)) (arg s) ls ->
  (forall l, In l ls -> length l < fuel) ->
  behaves glob (oom env)
    (fun h v => match ty with TVec => exists a, v = Ptr a /\ h a = Some (Vec (concat ls)) | _ => lst h v (concat ls) end) s
    (CONCATENATE env glob fuel (length (arg s)) ty s).
Proof. intros. apply leaves_behaves. eapply CONCATENATE_ok; eauto. Qed.
Print Assumptions C84_concatenate.

(** [f] may allocate and collect; it gets the first elements of the lists, then the second ones, and so on *)
Theorem C84_mapcar : forall env glob f g fuel s fn vs tss, keeps env -> computes f g -> sound glob s -> arg s = fn :: vs ->
  Forall2 (rep (hp s)) vs (map tlist tss) -> tss <> [] ->
  Forall (fun ts => length (hd [] tss) <= length ts) tss -> length (hd [] tss) < fuel ->
  behaves glob (oom env \/ throws f) (fun h v => rep h v (tlist (tmap g tss))) s (MAPCAR env glob f fuel (length vs) s).
Proof.
  intros env glob f g fuel s fn vs tss K Hc L Ea Hv Hne Hle Hf. unfold behaves.
  pose proof (wp_mapcar env glob (oom env \/ throws f) K (fun x => or_introl x) f g fn (stk s) Hc (fun x => or_intror x)
    fuel s vs tss [] [] (fun r s' => stk s' = stk s /\ same (hp s) (hp s') (stk s ++ glob) /\
      live (hp s') (r :: stk s' ++ glob ++ [last s']) /\ rep (hp s') r (tlist (tmap g tss))) Ea Hv Hne Hle Hf eq_refl
      (Forall2_nil _) L) as H.
  unfold MAPCAR. unfold wp in H. cbn [length] in H. destruct (mapcar_loop _ _ _ _ _ _ _); apply H;
  intros r s' F1 F2 F3 F4; (split; [exact F1|split; [exact F2|split; [|exact F4]]]);
  (eapply live_incl; [|exact F3]; unfold roots; inc).
Qed.
Print Assumptions C84_mapcar.

(** REMOVE and SUBSTITUTE with any :test and :key: the very elements that the pure functions of SeqModel (the subject of
    C18) select.  The key's value is in no root while the test is set up; call2 pushes it in time. *)
Theorem C84_remove : forall env glob test g key kf start end_ count s item T seq els, keeps env -> sound glob s ->
  computes test g -> key_is key kf ->
  nth_error (arg s) 0 = Some item -> rep (hp s) item T ->
  nth_error (arg s) 1 = Some seq -> lst (hp s) seq (map fst els) -> contents (hp s) els ->
  behaves glob (oom env \/ throws test \/ throws_opt key \/
                SeqModel.UNIREMOVE_list (block (item, T) g kf) els start end_ count = ListModel.Error)
    (fun h v => exists els', SeqModel.UNIREMOVE_list (block (item, T) g kf) els start end_ count = ListModel.Ret els' /\
                             lst h v (map fst els')) s
    (UNIREMOVE env glob test key start end_ count s).
Proof. intros. apply leaves_behaves. eapply UNIREMOVE_ok; eauto. Qed.
Print Assumptions C84_remove.

Theorem C84_substitute : forall env glob test g key kf start end_ count s new TN item T seq els, keeps env -> sound glob s ->
  computes test g -> key_is key kf ->
  nth_error (arg s) 0 = Some new -> nth_error (arg s) 1 = Some item -> rep (hp s) item T ->
  nth_error (arg s) 2 = Some seq -> lst (hp s) seq (map fst els) -> contents (hp s) els ->
  behaves glob (oom env \/ throws test \/ throws_opt key \/
                SeqModel.SUBSTITUTE_list (block (item, T) g kf) (new, TN) els start end_ count = ListModel.Error)
    (fun h v => exists els', SeqModel.SUBSTITUTE_list (block (item, T) g kf) (new, TN) els start end_ count = ListModel.Ret els' /\
                             lst h v (map fst els')) s
    (SUBSTITUTE env glob test key start end_ count s).
Proof. intros. apply leaves_behaves. eapply SUBSTITUTE_ok; eauto. Qed.
Print Assumptions C84_substitute.

(** SORT: the list ends up with the elements in the order of the pure merge sort (the subject of C19); its cells stay
    where they are *)
Theorem C84_sort : forall env glob pred g key kf fuel s v els ad, keeps env -> sound glob s ->
  computes pred g -> key_is key kf ->
  nth_error (arg s) 0 = Some v -> lst (hp s) v (map fst els) -> cells (hp s) v ad -> contents (hp s) els ->
  length els < fuel ->
  sorts glob (oom env \/ throws pred \/ throws_opt key) v ad
    (map fst (SeqModel.SORT_vec (fun X Y => negb (tnil (g [snd X; snd Y]))) (fun e => (fst e, kf (snd e))) els)) s
    (SORT glob pred key fuel s).
Proof. intros. eapply SORT_ok; eauto. Qed.
Print Assumptions C84_sort.

(** the reader collecting the elements of a list or of a vector, which it reads one by one *)
Theorem C84_read_list : forall env glob rd W fuel n s, keeps env -> sound glob s -> reads rd W ->
  (forall t, W t <> TAtom 0) -> n < fuel ->
  behaves glob (oom env \/ throws rd) (fun h v => rep h v (tlist (map W (seq (tm s) n)))) s
    (read_delimited_list env glob rd fuel n s).
Proof. intros. apply leaves_behaves. apply read_delimited_list_ok; auto. Qed.
Print Assumptions C84_read_list.

Theorem C84_read_vector : forall env glob rd W n s, keeps env -> sound glob s -> reads rd W ->
  behaves glob (oom env \/ throws rd)
    (fun h v => exists a l, v = Ptr a /\ h a = Some (Vec l) /\ Forall2 (rep h) l (map W (seq (tm s) n))) s
    (readvector env glob rd n s).
Proof. intros. apply leaves_behaves. apply readvector_ok; auto. Qed.
Print Assumptions C84_read_vector.

(** REMOVE-DUPLICATES keeps the key of an element in a C variable while it calls the key of the later ones.  The
    theorem holds only for keys that build nothing: no key, or one that returns a part of its argument. *)
Theorem C84_remove_duplicates_partial : forall env glob test g key kf start end_ s item seq els, keeps env -> sound glob s ->
  computes test g -> key_is key kf -> key_accessor key ->
  nth_error (arg s) 0 = Some seq -> lst (hp s) seq (map fst els) -> contents (hp s) els ->
  behaves glob (oom env \/ throws test \/ throws_opt key)
    (fun h v => lst h v (map fst (SeqModel.REMOVE_DUPLICATES_list (block item g kf) els start end_))) s
    (REMOVE_DUPLICATES env glob test key start end_ s).
Proof. intros. apply leaves_behaves. eapply REMOVE_DUPLICATES_ok; eauto. Qed.
Print Assumptions C84_remove_duplicates_partial.

(** *** A state for the examples: the list (3 1 2) at 0, 1, 2 and garbage at 3; a caller's list at 4 and 5 on the stack;
    seven cells of memory in all, so that every collection reuses what it frees. *)
Definition h0 : heap := heap_of
  [Cons (Atom 3) (Ptr 1); Cons (Atom 1) (Ptr 2); Cons (Atom 2) Nil; Cons (Ptr 3) (Ptr 0); Cons (Atom 8) (Ptr 5); Cons (Ptr 4) Nil].
Definition s0 : state := St h0 [Ptr 4] [Ptr 0] Nil 0.
Definition els0 : list (val * tree) := [(Atom 3, TAtom 3); (Atom 1, TAtom 1); (Atom 2, TAtom 2)].
Lemma s0_sound : sound [] s0.
Proof. apply (live_b_ok 9). reflexivity. Qed.
Lemma els0_lst : lst h0 (Ptr 0) (map fst els0).
Proof. apply (elements_lst 9). reflexivity. Qed.
Lemma els0_contents : contents h0 els0.
Proof. repeat constructor. Qed.

Example C84_ex_reverse : result (REVERSE (sweep 12 9) [] 9 s0) = Some [Atom 2; Atom 1; Atom 3].
Proof. reflexivity. Qed.
Example C84_ex_reverse_oom : REVERSE (sweep 7 9) [] 9 s0 = Fail.
Proof. reflexivity. Qed.
Example C84_ex_copy : result (COPYSEQ (sweep 12 9) [] 9 s0) = Some [Atom 3; Atom 1; Atom 2].
Proof. reflexivity. Qed.
Example C84_ex_butlast : result (BUTLAST (sweep 12 9) [] 9 1 s0) = Some [Atom 3; Atom 1].
Proof. reflexivity. Qed.
Example C84_ex_subseq : result (SUBSEQ (sweep 12 9) [] 9 1 (Some 3) s0) = Some [Atom 1; Atom 2].
Proof. reflexivity. Qed.
Definition s_two : state := St h0 [Ptr 4] [Ptr 0; Ptr 1] Nil 0.
Example C84_ex_append : result (APPEND (sweep 12 9) [] 9 2 s_two) = Some [Atom 3; Atom 1; Atom 2; Atom 1; Atom 2].
Proof. reflexivity. Qed.
Example C84_ex_concatenate : result (CONCATENATE (sweep 14 9) [] 9 2 TSub s_two) = Some [Atom 3; Atom 1; Atom 2; Atom 1; Atom 2].
Proof. reflexivity. Qed.
Example C84_ex_list : result (LIST (sweep 12 9) [] 2 s_two) = Some [Ptr 0; Ptr 1].
Proof. reflexivity. Qed.
Definition s_subst : state := St h0 [Ptr 4] [Ptr 2; Atom 1; Ptr 0] Nil 0.
Example C84_ex_subst : tresult (SUBST (sweep 12 9) [] 9 s_subst) =
  Some (tlist [TAtom 3; tlist [TAtom 2]; TAtom 2]).
Proof. reflexivity. Qed.

(** (mapcar #'list '(3 1 2)): the list of the argument is let go as it is used up *)
Definition s_map : state := St h0 [Ptr 4] [Atom 7; Ptr 0] Nil 0.
Example C84_ex_mapcar : tresult (MAPCAR (sweep 12 9) [] (list1 (sweep 12 9)) 9 1 s_map) =
  Some (tlist [tlist [TAtom 3]; tlist [TAtom 1]; tlist [TAtom 2]]).
Proof. reflexivity. Qed.
Example C84_ex_mapcar_applies : behaves [] (oom (sweep 12 9) \/ throws (list1 (sweep 12 9)))
  (fun h v => rep h v (tlist [tlist [TAtom 3]; tlist [TAtom 1]; tlist [TAtom 2]])) s_map
  (MAPCAR (sweep 12 9) [] (list1 (sweep 12 9)) 9 1 s_map).
Proof.
  apply (C84_mapcar (sweep 12 9) [] _ _ 9 s_map (Atom 7) [Ptr 0] [[TAtom 3; TAtom 1; TAtom 2]]
    (sweep_keeps 12 9) (list1_computes _ (sweep_keeps 12 9))); try reflexivity; try discriminate.
  - apply (live_b_ok 9). reflexivity.
  - constructor; [apply (content_rep 9); reflexivity|constructor].
  - repeat constructor.
  - cbn [hd length]. lia.
Qed.

(** :key list and :test equal, where the item is the list (1) *)
Definition equalp : fun_t := predicate tree_eqb.
Definition s_rem : state := St (heap_of
  [Cons (Atom 3) (Ptr 1); Cons (Atom 1) (Ptr 2); Cons (Atom 2) Nil; Cons (Atom 1) Nil]) [] [Ptr 3; Ptr 0] Nil 0.
Example C84_ex_remove : result (UNIREMOVE (sweep 8 9) [] equalp (Some (list1 (sweep 8 9))) 0 3 9 s_rem) = Some [Atom 3; Atom 2].
Proof. reflexivity. Qed.
Lemma s_rem_sound : sound [] s_rem.
Proof. apply (live_b_ok 9). reflexivity. Qed.
Lemma s_rem_item : rep (hp s_rem) (Ptr 3) (TCell (TAtom 1) TNil).
Proof. apply (content_rep 9). reflexivity. Qed.
Lemma s_rem_lst : lst (hp s_rem) (Ptr 0) (map fst els0).
Proof. apply (elements_lst 9). reflexivity. Qed.
Lemma s_rem_contents : contents (hp s_rem) els0.
Proof. repeat constructor. Qed.
Example C84_ex_remove_applies : behaves []
  (oom (sweep 8 9) \/ throws equalp \/ throws_opt (Some (list1 (sweep 8 9))) \/ Some [Atom 3; Atom 2] = None)
  (fun h v => lst h v [Atom 3; Atom 2]) s_rem (UNIREMOVE (sweep 8 9) [] equalp (Some (list1 (sweep 8 9))) 0 3 9 s_rem).
Proof.
  pose proof (C84_remove (sweep 8 9) [] equalp _ (Some (list1 (sweep 8 9))) (fun t => TCell t TNil) 0 3 9 s_rem (Ptr 3)
    (TCell (TAtom 1) TNil) (Ptr 0) els0 (sweep_keeps 8 9)
    s_rem_sound (predicate_computes tree_eqb) (list1_computes _ (sweep_keeps 8 9)) eq_refl
    s_rem_item eq_refl s_rem_lst s_rem_contents) as H.
  unfold behaves in *. destruct (UNIREMOVE _ _ _ _ _ _ _ _).
  - destruct H as (A & B & C & els' & D & E). split; [exact A|split; [exact B|split; [exact C|]]].
    cbn in D. injection D as <-. exact E.
  - exact H.
  - destruct H as [H|[H|[H|H]]]; [left; exact H|right; left; exact H|right; right; left; exact H|discriminate H].
  - exact H.
Qed.

(** sorted by descending (list x): both keys are fresh lists and survive until the predicate has them *)
Definition greater : fun_t := predicate (fun X Y => match tcar X, tcar Y with TAtom m, TAtom n => n <? m | _, _ => false end).
Example C84_ex_sort : result (SORT [] greater (Some (list1 (sweep 8 9))) 9 s0) = Some [Atom 3; Atom 2; Atom 1].
Proof. reflexivity. Qed.
Lemma h0_cells : cells h0 (Ptr 0) [0; 1; 2].
Proof. repeat econstructor. Qed.
Example C84_ex_sort_applies : sorts [] (oom (sweep 8 9) \/ throws greater \/ throws_opt (Some (list1 (sweep 8 9))))
  (Ptr 0) [0; 1; 2] [Atom 3; Atom 2; Atom 1] s0 (SORT [] greater (Some (list1 (sweep 8 9))) 9 s0).
Proof.
  exact (C84_sort (sweep 8 9) [] greater _ (Some (list1 (sweep 8 9))) (fun t => TCell t TNil) 9 s0 (Ptr 0) els0 [0; 1; 2]
    (sweep_keeps 8 9) s0_sound (predicate_computes _) (list1_computes _ (sweep_keeps 8 9)) eq_refl els0_lst h0_cells els0_contents
    (le_n_S _ _ (le_n_S _ _ (le_n_S _ _ (le_n_S _ _ (Nat.le_0_l 5)))))).
Qed.

(** the reader, each element a fresh list *)
Definition read_token : fun_t := fun t vs h _ => list1 (sweep 12 9) t vs h [Atom (S t)].
Lemma read_token_reads : reads read_token (fun t => TCell (TAtom (S t)) TNil).
Proof.
  intros t vs h h' v l H L. unfold read_token, list1 in H. destruct (sweep 12 9 t vs h) as [[h1 a]|] eqn:E; [|discriminate].
  injection H as <- <- <-. destruct (sweep_keeps 12 9 _ _ _ _ _ E L) as [S1 E1]. cbn [hd].
  assert (rep (set h1 a (Cons (Atom (S t)) Nil)) (Ptr a) (TCell (TAtom (S t)) TNil)) as R.
  { econstructor; [apply set_eq|constructor|constructor]. }
  split; [|split; [exact R|eapply rep_live; exact R]].
  eapply same_trans; [exact S1|apply set_same; [exact E1|eapply same_live; [exact S1|exact L]]|apply cover_incl; apply incl_refl].
Qed.
Example C84_ex_read : tresult (read_delimited_list (sweep 12 9) [] read_token 9 3 s0) =
  Some (tlist [tlist [TAtom 1]; tlist [TAtom 2]; tlist [TAtom 3]]).
Proof. reflexivity. Qed.

(** (remove-duplicates '((1) (2) (1)) :key #'car :test #'equal): a key that builds nothing *)
Definition s_dup : state := St (heap_of [Cons (Ptr 1) (Ptr 2); Cons (Atom 1) Nil; Cons (Ptr 3) (Ptr 4); Cons (Atom 2) Nil;
  Cons (Ptr 5) Nil; Cons (Atom 1) Nil]) [] [Ptr 0] Nil 0.
Example C84_ex_duplicates : result (REMOVE_DUPLICATES (sweep 9 9) [] equalp (Some car1) 0 3 s_dup) = Some [Ptr 3; Ptr 5].
Proof. reflexivity. Qed.
Example C84_ex_accessor : key_accessor (Some car1) /\ key_is (Some car1) tcar.
Proof. split; [exact car1_accessor|exact car1_computes]. Qed.

(** *** The bug: (remove-duplicates '(1 2 3) :key #'list :test #'equal) can return (2 3).  The key of 1 is freed while
    the key of 3 is made, and the new cell takes its place; the test then compares the list (3) with itself. *)
Definition s_bug : state := St (heap_of [Cons (Atom 1) (Ptr 1); Cons (Atom 2) (Ptr 2); Cons (Atom 3) Nil]) [] [Ptr 0] Nil 0.
Definition els_bug : list (val * tree) := [(Atom 1, TAtom 1); (Atom 2, TAtom 2); (Atom 3, TAtom 3)].
Theorem C84_remove_duplicates_refuted : exists env test g key kf s seq els,
  keeps env /\ sound [] s /\ computes test g /\ key_is (Some key) kf /\ nth_error (arg s) 0 = Some seq /\
  lst (hp s) seq (map fst els) /\ contents (hp s) els /\
  map fst (SeqModel.REMOVE_DUPLICATES_list (block (Nil, TNil) g kf) els 0 3) = [Atom 1; Atom 2; Atom 3] /\
  result (REMOVE_DUPLICATES env [] test (Some key) 0 3 s) = Some [Atom 2; Atom 3].
Proof.
  exists (sweep 6 9), equalp, (fun ts => bool_tree (tree_eqb (nth 0 ts TNil) (nth 1 ts TNil))), (list1 (sweep 6 9)), (fun t => TCell t TNil), s_bug, (Ptr 0), els_bug.
  split; [apply sweep_keeps|]. split; [apply (live_b_ok 9); reflexivity|]. split; [apply predicate_computes|].
  split; [apply list1_computes; apply sweep_keeps|]. split; [reflexivity|]. split; [apply (elements_lst 9); reflexivity|].
  split; [repeat constructor|]. split; reflexivity.
Qed.
Print Assumptions C84_remove_duplicates_refuted.
(** with a key that is freed and not reused the test reads a cell that is not allocated: here the collector hands out new
    addresses as long as it can, and the predicate meets a missing cell and refuses *)
Definition sweep_up (bound fuel : nat) : env_t := fun t vs h =>
  match sweep bound fuel t vs h with
  | Some (h', a) => match h' (10 + t) with None => Some (h', 10 + t) | Some _ => Some (h', a) end
  | None => None
  end.
Lemma sweep_up_keeps bound fuel : keeps (sweep_up bound fuel).
Proof.
  intros t vs h h' a H L. unfold sweep_up in H. destruct (sweep bound fuel t vs h) as [[h1 b]|] eqn:E; [|discriminate].
  destruct (sweep_keeps _ _ _ _ _ _ _ E L) as [A B]. destruct (h1 (10 + t)) eqn:E1; injection H as <- <-; auto.
Qed.
Example C84_ex_bug_missing : REMOVE_DUPLICATES (sweep_up 6 9) [] equalp (Some (list1 (sweep_up 6 9))) 0 3 s_bug = Fail /\
  result (REMOVE_DUPLICATES (sweep_up 6 9) [] equalp None 0 3 s_bug) = Some [Atom 1; Atom 2; Atom 3].
Proof. split; reflexivity. Qed.
