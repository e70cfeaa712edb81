(** Model of the mapping functions: MAPC, MAPCAR, MAPCAN (lisp/c/specials.c:203-303), maplist, mapcon, every, some, reduce
    (lisp/l/common.l:448-481, 930-968).

    Sequences are lists; every, some and reduce are modelled with [elt] on lists (lisp/c/sequence.c:1038-1051).  The
    called function may have effects and may fail: a computation takes a state and gives a state and maybe a value.  The
    function does not change the conses of the sequences, and the lists that MAPCAN and mapcon join share no conses, so
    that nconc and nreverse are append and reverse (properties C16 and C17).  Dotted lists are left out. *)
From Coq Require Export List Arith Bool Lia.
Export ListNotations.

Definition comp (St A : Type) : Type := St -> St * option A.
Definition ret {St A} (a : A) : comp St A := fun s => (s, Some a).
Definition fail {St A} : comp St A := fun s => (s, None).
Definition bind {St A B} (m : comp St A) (k : A -> comp St B) : comp St B :=
  fun s => match m s with (s', Some a) => k a s' | (s', None) => (s', None) end.

Section Model.
Context {St A B : Type}.

(** specials.c:217-223: the inner loop; an exhausted list is an error *)
Fixpoint take_cars (ls : list (list A)) : option (list A * list (list A)) :=
  match ls with
  | [] => Some ([], [])
  | [] :: _ => None
  | (a :: r) :: ls' => match take_cars ls' with Some (hs, ts) => Some (a :: hs, r :: ts) | None => None end
  end.

(** specials.c:249-262: the first list decides how often *)
Fixpoint mapcar_loop (f : list A -> comp St B) (first : list A) (others : list (list A)) : comp St (list B) :=
  match first with
  | [] => ret []
  | a :: r =>
      match take_cars others with
      | None => fail
      | Some (hs, ts) => bind (f (a :: hs)) (fun b => bind (mapcar_loop f r ts) (fun bs => ret (b :: bs)))
      end
  end.

(** specials.c:232-265 *)
Definition MAPCAR (f : list A -> comp St B) (ls : list (list A)) : comp St (list B) :=
  match ls with [] => fail | l :: r => mapcar_loop f l r end.

(** specials.c:203-230; argv[1] has become the end of the list when it is returned *)
Definition MAPC (f : list A -> comp St B) (ls : list (list A)) : comp St (list A) :=
  match ls with [] => fail | l :: r => bind (mapcar_loop f l r) (fun _ => ret []) end.

(** common.l:448-464.  The other lists are stepped with cdar, which is NIL on NIL. *)
Fixpoint maplist_loop (f : list (list A) -> comp St B) (arg : list A) (more : list (list A)) (result : list B) :
    comp St (list B) :=
  match arg with
  | [] => ret (rev result)
  | _ :: r => bind (f (arg :: more)) (fun b => maplist_loop f r (map (@tl A) more) (b :: result))
  end.
Definition maplist (f : list (list A) -> comp St B) (arg : list A) (more : list (list A)) : comp St (list B) :=
  maplist_loop f arg more [].

(** common.l:930-938.  [truth] tells the true values. *)
Fixpoint every_list (truth : B -> bool) (f : list A -> comp St B) (arg : list A) : comp St bool :=
  match arg with
  | [] => ret true
  | a :: r => bind (f [a]) (fun b => if truth b then every_list truth f r else ret false)
  end.

(** (mapcar #'(lambda (x) (elt x i)) arg) *)
Fixpoint elts (ls : list (list A)) (i : nat) : option (list A) :=
  match ls with
  | [] => Some []
  | l :: r => match nth_error l i with
              | None => None
              | Some a => match elts r i with Some t => Some (a :: t) | None => None end
              end
  end.

(** The dotimes of 935-937; [n] rounds are left *)
Fixpoint every_loop (truth : B -> bool) (f : list A -> comp St B) (ls : list (list A)) (n i : nat) : comp St bool :=
  match n with
  | O => ret true
  | S n => match elts ls i with
           | None => fail
           | Some args => bind (f args) (fun b => if truth b then every_loop truth f ls n (S i) else ret false)
           end
  end.

Definition every (truth : B -> bool) (f : list A -> comp St B) (arg : list A) (more : list (list A)) : comp St bool :=
  match more with
  | [] => every_list truth f arg
  | _ => every_loop truth f (arg :: more) (length arg) 0
  end.

(** common.l:940-945; NIL is [None] *)
Fixpoint some_loop (truth : B -> bool) (f : list A -> comp St B) (ls : list (list A)) (n i : nat) : comp St (option B) :=
  match n with
  | O => ret None
  | S n => match elts ls i with
           | None => fail
           | Some args => bind (f args) (fun b => if truth b then ret (Some b) else some_loop truth f ls n (S i))
           end
  end.
Definition some (truth : B -> bool) (f : list A -> comp St B) (arg : list A) (more : list (list A)) : comp St (option B) :=
  some_loop truth f (arg :: more) (length arg) 0.
End Model.

(** specials.c:267-303 *)
Definition MAPCAN {St A B} (f : list A -> comp St (list B)) (ls : list (list A)) : comp St (list B) :=
  bind (MAPCAR f ls) (fun rs => ret (concat rs)).

(** common.l:466-481 *)
Fixpoint mapcon_loop {St A B} (f : list (list A) -> comp St (list B)) (arg : list A) (more : list (list A)) (result : list B) :
    comp St (list B) :=
  match arg with
  | [] => ret (rev result)
  | _ :: r => bind (f (arg :: more)) (fun b => mapcon_loop f r (map (@tl A) more) (b ++ result))
  end.
Definition mapcon {St A B} (f : list (list A) -> comp St (list B)) (arg : list A) (more : list (list A)) : comp St (list B) :=
  mapcon_loop f arg more [].

(** common.l:949-968: [f] is called with no or two arguments.  [initial] is [None] for NIL or no initial value; [end_] and
    [start] are within fixnums. *)
Section Reduce.
Context {St A : Type}.
Definition elt (l : list A) (i : nat) : comp St A := match nth_error l i with Some a => ret a | None => fail end.

Fixpoint reduce_loop (f : list A -> comp St A) (seq : list A) (n i : nat) (acc : A) : comp St A :=
  match n with
  | O => ret acc
  | S n => bind (elt seq i) (fun x => bind (f [acc; x]) (fun acc => reduce_loop f seq n (S i) acc))
  end.

(** start <= end; [length] is the variable of that name *)
Definition reduce (f : list A -> comp St A) (seq : list A) (start end_ : nat) (from_end : bool) (initial : option A) :
    comp St A :=
  let length := end_ - start in
  let seq := if from_end then rev seq else seq in
  match length, initial with
  | 1, None => elt seq start
  | O, Some v => ret v
  | O, None => f []
  | _, Some v => reduce_loop f seq length start v
  | _, None => bind (elt seq start) (fun x => bind (elt seq (start + 1)) (fun y => bind (f [x; y]) (fun acc =>
               reduce_loop f seq (length - 2) (start + 2) acc)))
  end.
End Reduce.
