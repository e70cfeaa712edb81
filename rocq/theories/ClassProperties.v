(** Properties C28, C29, C30. *)
From Verif Require Import ClassModel ClassProofs ClassProofs2.

(** ** C28 property lists *)
Theorem C28_get_returns_last_put : forall os tag default,
  getprop (prun os) tag default = match last_put os tag None with Some v => v | None => default end.
Proof. exact plist_map. Qed.
Print Assumptions C28_get_returns_last_put.

Example C28_ex : map (fun t => getprop (prun [Put 1 10; Put 2 20; Put 1 11; Rem 2; Put 3 30; Rem 3; Put 2 22; Rem 1]) t 99) [1%N; 2%N; 3%N]
                 = [99%N; 22%N; 99%N].
Proof. vm_compute. reflexivity. Qed.

(** ** C29 class numbering *)
(** Any sequence of class definitions and instantiations (up to the table size) runs without error; after it
    the index-interval test is the ancestor relation of the history, every object still belongs to the class
    it was made from, and derivedp agrees with that class. *)
Theorem C29_subclassp_is_ancestor : forall os, clegal_from 0 os -> length (class_supers os) <= MAXCLASS ->
  exists t, crun no_classes os = Some t /\
    (forall a c, a < length (class_supers os) -> c < length (class_supers os) ->
       (subclassp t c a = true <-> anc (super_in os) a c)) /\
    map (classof t) (objs t) = object_classes os /\
    (forall i a, i < length (object_classes os) -> a < length (class_supers os) ->
       (derivedp t (nth i (objs t) 0) a = true <-> anc (super_in os) a (nth i (object_classes os) 0))).
Proof. exact class_run. Qed.
Print Assumptions C29_subclassp_is_ancestor.

(** classes 2..5 are inserted below earlier ones, so class 1 and the objects are renumbered several times *)
Definition demo_classes :=
  [DefClass None; DefClass (Some 0); New 1; DefClass (Some 0); New 2; DefClass (Some 1); New 3;
   DefClass (Some 1); DefClass (Some 3); New 1; DefClass None; DefClass (Some 5)].
Example C29_ex_hyp : clegal_from 0 demo_classes /\ length (class_supers demo_classes) <= MAXCLASS.
Proof. split; [cbn; lia|]. cbn. apply Nat.leb_le. vm_compute. reflexivity. Qed.
Example C29_ex : option_map (fun t => (map (cix t) (seq 0 8), map (tsub t) (seq 0 8), objs t, map (subclassp t 7) (seq 0 8)))
    (crun no_classes demo_classes) =
  Some ([0; 1; 6; 2; 5; 3; 7; 4], [6; 5; 4; 4; 4; 5; 6; 7], [1; 6; 2; 1], [true; true; false; true; false; true; false; true]).
Proof. vm_compute. reflexivity. Qed.

(** ** C30 method lookup *)
(** In every program (class definitions, method definitions, sends by any threads, new threads, cache
    switching, and delete-method while there is one thread), with any addresses for selectors and classes
    and hence any collisions, a send of a selector other than NIL finds exactly the method that the history
    of definitions prescribes.  Each operation is taken as one step. *)
Theorem C30_send_finds_current_method_partial : forall caddr nilsym os t c sel r,
  program (os ++ [MSend t c sel]) -> deletes_alone os -> sel <> nilsym ->
  (snd (findmethod caddr (mrun caddr nilsym os) t sel c) = Some r <-> resolves os sel c r).
Proof. exact send_resolves. Qed.
Print Assumptions C30_send_finds_current_method_partial.

(** two classes, two threads; selectors 1000 and 9192 share a slot for class 0 (addresses 64*c) *)
Definition demo_addr (c : nat) : N := (64 * N.of_nat c)%N.
Definition demo_meths := [MClass None; MClass (Some 0); MThread; MDef 0 1000 5; MSend 0 1 1000; MSend 1 1 1000; MSend 0 0 9192;
  MDef 0 9192 6; MSend 0 0 9192; MDef 1 1000 7].
Example C30_ex_collide : slot_of demo_addr 1000 0 = slot_of demo_addr 9192 0.
Proof. vm_compute. reflexivity. Qed.
Example C30_ex_hyp : program (demo_meths ++ [MSend 1 1 1000]) /\ deletes_alone demo_meths.
Proof.
  split.
  - unfold demo_meths. cbn [app].
    repeat match goal with
    | |- program [] => constructor
    | |- program ?l => let h := eval cbv in (removelast l) in let x := eval cbv in (last l MThread) in
        change (program (h ++ [x])); constructor; [|cbn; lia]
    end.
  - intros a t c sel b E. unfold demo_meths in E.
    assert (H : In (MDelete t c sel) demo_meths) by (unfold demo_meths; rewrite E; apply in_elt).
    cbn in H. repeat (destruct H as [H|H]; [discriminate|]). contradiction.
Qed.
Example C30_ex : snd (findmethod demo_addr (mrun demo_addr 16 demo_meths) 1 1000 1) = Some (1, 7).
Proof. vm_compute. reflexivity. Qed.

(** A purged entry keeps its class and method under selector NIL: sending NIL then runs the old method. *)
Theorem C30_nil_selector_refuted : exists caddr nilsym os t c r,
  program (os ++ [MSend t c nilsym]) /\ deletes_alone os /\
  snd (findmethod caddr (mrun caddr nilsym os) t nilsym c) = Some r /\ forall r', ~ resolves os nilsym c r'.
Proof.
  exists demo_addr, 4096%N, [MClass None; MDef 0 6144 7; MSend 0 0 6144; MDef 0 6144 8], 0, 0, (0, 7).
  split; [|split; [|split]].
  - repeat match goal with
    | |- program [] => constructor
    | |- program ?l => let h := eval cbv in (removelast l) in let x := eval cbv in (last l MThread) in
        change (program (h ++ [x])); constructor; [|cbn; lia]
    end.
  - intros a t c sel b E.
    assert (H : In (MDelete t c sel) (a ++ MDelete t c sel :: b)) by apply in_elt. rewrite <- E in H.
    cbn in H. repeat (destruct H as [H|H]; [discriminate|]). contradiction.
  - vm_compute. reflexivity.
  - intros r' H. inversion H as [c m E|c s r0 E E2 H']; subst; [discriminate E|discriminate E2].
Qed.
Print Assumptions C30_nil_selector_refuted.

(** delete-method empties only the caller's cache: another thread goes on finding the deleted method. *)
Theorem C30_delete_method_refuted : exists caddr nilsym os t c sel r,
  program (os ++ [MSend t c sel]) /\ sel <> nilsym /\
  snd (findmethod caddr (mrun caddr nilsym os) t sel c) = Some r /\ forall r', ~ resolves os sel c r'.
Proof.
  exists demo_addr, 4096%N, [MClass None; MDef 0 6144 7; MThread; MSend 1 0 6144; MDelete 0 0 6144], 1, 0, 6144%N, (0, 7).
  split; [|split; [|split]].
  - repeat match goal with
    | |- program [] => constructor
    | |- program ?l => let h := eval cbv in (removelast l) in let x := eval cbv in (last l MThread) in
        change (program (h ++ [x])); constructor; [|cbn; lia]
    end.
  - discriminate.
  - vm_compute. reflexivity.
  - intros r' H. inversion H as [c m E|c s r0 E E2 H']; subst; [discriminate E|discriminate E2].
Qed.
Print Assumptions C30_delete_method_refuted.

(** findmethod takes no lock.  If another thread redefines the method between the search and the store,
    the stale method enters the cache and later sends use it. *)
Theorem C30_store_race_refuted : exists caddr nilsym os t c sel m' r,
  program (os ++ [MSend t c sel]) /\ sel <> nilsym /\
  let w := mrun caddr nilsym os in
  probe caddr w t sel c = None /\
  let found := search (S (w_n w)) w sel c in          (* thread t searches *)
  let w1 := addmethod nilsym w c sel m' in            (* another thread: defmethod *)
  let w2 := store caddr w1 t sel c found in           (* thread t stores *)
  snd (findmethod caddr w2 t sel c) = Some r /\ forall r', resolves (os ++ [MDef c sel m']) sel c r' -> r' <> r.
Proof.
  exists demo_addr, 4096%N, [MClass None; MDef 0 6144 7; MThread], 1, 0, 6144%N, 8, (0, 7).
  split; [|split; [|split; [|split]]].
  - repeat match goal with
    | |- program [] => constructor
    | |- program ?l => let h := eval cbv in (removelast l) in let x := eval cbv in (last l MThread) in
        change (program (h ++ [x])); constructor; [|cbn; lia]
    end.
  - discriminate.
  - vm_compute. reflexivity.
  - vm_compute. reflexivity.
  - intros r' H. inversion H as [c m E|c s r0 E E2 H']; subst; [|discriminate E2]. cbn in E. injection E as <-. discriminate.
Qed.
Print Assumptions C30_store_race_refuted.
