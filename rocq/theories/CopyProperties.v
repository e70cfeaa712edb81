(** C34: copy-object. *)
From Verif Require Import CopyProofs2.

(** [copyable]: every pointer reachable from the argument is that of an object, and no reachable object is an
    instance of a class with fewer than two slots or an empty pointer vector.  Whatever the sharing and the cycles,
    either the result is an isomorphic copy on fresh addresses (symbols and classes are shared), what is reachable
    from it being exactly the image of what is reachable from the argument, or the error "too big to copy" is
    raised, and then the stack has no room for two words per object; in both cases every existing object is as it was and no mark is left. *)
Theorem C34_copy_object_partial : forall C limit h n w fuel, copyable C h n w -> n + 1 <= fuel ->
  match COPYOBJ fuel C limit h n w with
  | CVal st w' => unchanged n h (heap st) /\ (forall a, pm st a = false) /\
      exists f, copy_of C h w n (heap st) (next st) f /\ w' = rename C h f w /\
        (forall b, reach C (heap st) w' b <-> exists a, reach C h w a /\ b = f a)
  | CError st => unchanged n h (heap st) /\ (forall a, pm st a = false) /\ limit < 2 * n
  | _ => False
  end.
Proof.
  intros C limit h n w fuel OK F. assert (T := COPYOBJ_ok C limit h n w fuel OK F).
  destruct (COPYOBJ fuel C limit h n w) as [st w'|st| |]; auto.
  destruct T as (U & P & _ & f & K & E). split; [exact U|]. split; [exact P|]. exists f.
  split; [exact K|]. split; [exact E|]. rewrite E. exact (copy_reach C h w n (heap st) (next st) f OK U K).
Qed.
Print Assumptions C34_copy_object_partial.

(** The full property fails: an instance of a class with a single slot (a plain propertied-object, say) is not
    copied; its cell's unused word is NULL and is followed as a pointer.  Likewise for an empty vector. *)
Theorem C34_one_slot_refuted : exists C h n a, objsize C (cix (h a)) = 1 /\ etype (h a) = FIXED /\ a < n /\
  (forall i, i < 1 -> valid n (iv (h a) i)) /\
  forall limit fuel, 2 <= fuel -> COPYOBJ fuel C limit h n (WPtr a) = CUndef.
Proof.
  exists (mkClasses (fun c => c =? 0) (fun _ => 1) 0).
  exists (fun a => if a =? 0 then mkObj 0 FIXED 0 (fun _ => WNull)
                   else mkObj 1 FIXED 0 (fun i => if i =? 0 then WPtr 0 else WNull)).
  exists 2, 1. repeat split; auto.
  - intros i Hi. replace i with 0 by lia. cbn. lia.
  - intros limit fuel F. apply copy_short; auto.
Qed.
Print Assumptions C34_one_slot_refuted.

Theorem C34_empty_vector_refuted : exists C h n a, etype (h a) = POINTER /\ vsize (h a) = 0 /\ a < n /\
  forall limit fuel, 2 <= fuel -> COPYOBJ fuel C limit h n (WPtr a) = CUndef.
Proof.
  exists (mkClasses (fun c => c =? 0) (fun _ => 1) 0).
  exists (fun a => if a =? 0 then mkObj 0 FIXED 0 (fun _ => WNull) else mkObj 1 POINTER 0 (fun _ => WNull)).
  exists 2, 1. repeat split; auto. intros limit fuel F. apply copy_short; auto.
Qed.
Print Assumptions C34_empty_vector_refuted.

(** Example: a circular list #1=(s v . #1#) with a vector v = #(c 7 c) sharing the first cell c, where c itself is
    the cell at 1; address 0 is NIL, 4 a string of 9 bytes held by the vector. *)
Definition exC := mkClasses (fun c => c =? 0) (fun c => if c =? 1 then 2 else 3) 0.
Definition exh (a : nat) : obj :=
  match a with
  | 1 => mkObj 1 FIXED 0 (fun i => match i with 0 => WPtr 0 | 1 => WPtr 2 | _ => WNull end)
  | 2 => mkObj 1 FIXED 0 (fun i => match i with 0 => WPtr 3 | 1 => WPtr 1 | _ => WNull end)
  | 3 => mkObj 2 POINTER 4 (fun i => match i with 0 => WPtr 1 | 1 => WNum 7 | 2 => WPtr 1 | 3 => WPtr 4 | _ => WNull end)
  | 4 => mkObj 3 CHAR 9 (fun i => match i with 0 => WNum 111 | 1 => WNum 222 | _ => WNull end)
  | _ => mkObj 0 FIXED 0 (fun _ => WNull)
  end.
Lemma exh_reach : forall a, reach exC exh (WPtr 1) a -> a = 1 \/ a = 2 \/ a = 3 \/ a = 4.
Proof.
  intros a R. induction R as [a E L|a i b R IH Hi E L].
  - injection E as <-. auto.
  - destruct IH as [X|[X|[X|X]]]; subst a; cbn in Hi.
    + destruct i as [|[|i]]; try lia; cbn in E; injection E as <-; [discriminate L|auto].
    + destruct i as [|[|i]]; try lia; cbn in E; injection E as <-; auto.
    + destruct i as [|[|[|[|i]]]]; try lia; cbn in E; try discriminate; injection E as <-; auto.
    + lia.
Qed.
Example C34_ex_hyp : copyable exC exh 5 (WPtr 1).
Proof.
  split; [cbn; lia|]. intros a R. destruct (exh_reach a R) as [X|[X|[X|X]]]; subst a; cbn; (split; [|lia || auto]);
    intros i Hi; try lia.
  - destruct i as [|[|i]]; cbn; lia.
  - destruct i as [|[|i]]; cbn; lia.
  - destruct i as [|[|[|[|i]]]]; cbn; auto; lia.
Qed.
Example C34_ex :
  match COPYOBJ 6 exC 100 exh 5 (WPtr 1) with
  | CVal st w => w = WPtr 5 /\ next st = 9 /\ iv (heap st 5) 0 = WPtr 0 /\ iv (heap st 5) 1 = WPtr 6 /\
      iv (heap st 6) 1 = WPtr 5 /\ iv (heap st 6) 0 = WPtr 7 /\ iv (heap st 7) 1 = WNum 7 /\
      iv (heap st 7) 2 = WPtr 5 /\ iv (heap st 7) 3 = WPtr 8 /\ iv (heap st 8) 1 = WNum 222
  | _ => False
  end.
Proof. vm_compute. repeat split. Qed.
Example C34_ex_big : match COPYOBJ 6 exC 3 exh 5 (WPtr 1) with CError st => iv (heap st 1) 1 = WPtr 2 | _ => False end.
Proof. vm_compute. reflexivity. Qed.
