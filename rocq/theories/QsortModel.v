(** Model of quick-sort and qsort: lib/llib/qsort.l:1-46.

    A vector is a list; aref outside it is an error.  [lt a b] is (funcall predicate (funcall key a) (funcall key b)); predicate
    and key have no effects.  j and k are declared fixnum and stay between -1 and the length.  The loops carry fuel. *)
From Coq Require Export List ZArith Bool Lia.
Export ListNotations.
Open Scope Z_scope.

Section Model.
Context {A : Type} (lt : A -> A -> bool).

(** [Loop]: not finished within the fuel *)
Inductive outcome (T : Type) : Type := Done (t : T) | Error | Loop.
Arguments Done {T} t.  Arguments Error {T}.  Arguments Loop {T}.

Definition bind {T U} (r : outcome T) (k : T -> outcome U) : outcome U :=
  match r with Done t => k t | Error => Error | Loop => Loop end.

Definition aref (v : list A) (i : Z) : outcome A :=
  if i <? 0 then Error else match nth_error v (Z.to_nat i) with Some a => Done a | None => Error end.

Fixpoint set_nth (n : nat) (v : list A) (x : A) : list A :=
  match v, n with
  | [], _ => []
  | _ :: r, O => x :: r
  | y :: r, S n => y :: set_nth n r x
  end.
Definition aset (v : list A) (i : Z) (x : A) : outcome (list A) :=
  if (0 <=? i) && (i <? Z.of_nat (length v)) then Done (set_nth (Z.to_nat i) v x) else Error.

(** qsort.l:9-14: k goes down to an element before d *)
Fixpoint down (fuel : nat) (v : list A) (j k : Z) (d : A) : outcome Z :=
  match fuel with
  | O => Loop
  | S f => if j >? k then Done k
           else bind (aref v k) (fun x => if lt x d then Done k else down f v j (k - 1) d)
  end.

(** qsort.l:18-23: j goes up to an element that is not *)
Fixpoint up (fuel : nat) (v : list A) (j k : Z) (d : A) : outcome Z :=
  match fuel with
  | O => Loop
  | S f => if j >? k then Done j
           else bind (aref v j) (fun x => if lt x d then up f v (j + 1) k d else Done j)
  end.

(** qsort.l:7-29: the outer do.  The result [None] is the return of 15-17 (no element before the first). *)
Fixpoint part (fuel : nat) (v : list A) (start j k : Z) (d : A) : outcome (option (list A * Z)) :=
  match fuel with
  | O => Loop
  | S f =>
      if j >? k then Done (Some (v, j))
      else
        bind (down (S (S (length v))) v j k d) (fun k =>
        if k <? start then Done None
        else
          bind (up (S (S (length v))) v j k d) (fun j =>
          if j >? k then Done (Some (v, j))
          else
            bind (aref v k) (fun exch => bind (aref v j) (fun vj =>
            bind (aset v k vj) (fun v => bind (aset v j exch) (fun v =>
            part f v start (j + 1) (k - 1) d))))))
  end.

(** qsort.l:1-32 *)
Fixpoint quick_sort (fuel : nat) (v : list A) (start end_ : Z) : outcome (list A) :=
  match fuel with
  | O => Loop
  | S f =>
      if end_ <=? start + 1 then Done v
      else
        bind (aref v start) (fun d =>
        bind (part (S (S (length v))) v start start (end_ - 1) d) (fun r =>
        match r with
        | None => quick_sort f v (start + 1) end_
        | Some (v, j) => bind (quick_sort f v start j) (fun v => quick_sort f v j end_)
        end))
  end.

(** qsort.l:34-46; a list is turned into a vector and its elements are stored back into its conses *)
Definition qsort (fuel : nat) (v : list A) : outcome (list A) :=
  quick_sort fuel v 0 (Z.of_nat (length v)).
End Model.
Arguments Done {T} t.  Arguments Error {T}.  Arguments Loop {T}.
