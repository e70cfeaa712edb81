(** Model of hash tables, lisp/l/hashtab.l:11-164, and of queues, lisp/l/hashtab.l:224-256.

    The parallel vectors [key] and [value] are modelled as one list of (slot, value) pairs.  The marker
    symbols [empty] and [deleted] are fresh gensyms (139-140) and are modelled as constructors: a user
    key is never one of them and the test function never equates a key with one.  [over fill size] is
    the condition [(> fill-count (/ size rehash-size))] of line 49; for the default factor 1.7 it is
    taken over the rationals instead of floats. *)
From Coq Require Export List Arith Lia Bool.
From Coq Require Export Permutation.
Export ListNotations.

(** replace position i of a vector *)
Fixpoint upd {A} (i : nat) (x : A) (l : list A) : list A :=
  match l, i with
  | [], _ => []
  | _ :: r, O => x :: r
  | a :: r, S j => a :: upd j x r
  end.

Section Hash.
  Context {K V : Type} (hash : K -> nat) (test : K -> K -> bool) (over : nat -> nat -> bool) (vnil : V).

  Inductive slot := Empty | Deleted | Key (k : K).

  Record table := mkTable { vec : list (slot * V); fill_count : nat; count : nat }.

  Definition size (t : table) : nat := length (vec t).

  (** result of [:find] (31-42): an index below the size when found, the size plus an index when not *)
  Inductive found := Found (i : nat) | Vacant (i : nat).

  (** the while loop 33-41; [fuel] counts the slots not yet probed.  After all of them have been probed
      without success the C loop would go round for ever: [None]. *)
  Fixpoint find_loop (fuel : nat) (vec : list (slot * V)) (s : K) (idx : nat) (empty_pos : option nat)
    : option found :=
    match fuel with
    | O => None
    | S f =>
        let next e := let j := S idx in
                      find_loop f vec s (if length vec <=? j then 0 else j) e in
        match fst (nth idx vec (Empty, vnil)) with
        | Key k => if test k s then Some (Found idx) else next empty_pos
        | Empty => Some (Vacant (match empty_pos with Some p => p | None => idx end))
        | Deleted => next (match empty_pos with Some p => Some p | None => Some idx end)
        end
    end.

  (** line 32 computes the start index; a table of size 0 divides by zero, modelled as divergence *)
  Definition find (t : table) (s : K) : option found :=
    find_loop (size t) (vec t) s (hash s mod size t) None.

  (** 43-45 [:get] *)
  Definition get (not_found : V) (t : table) (s : K) : option V :=
    match find t s with
    | None => None
    | Some (Vacant _) => Some not_found
    | Some (Found i) => Some (snd (nth i (vec t) (Empty, vnil)))
    end.

  (** 52-58: storing into a vacant slot, and into an existing one *)
  Definition is_empty (s : slot) : bool := match s with Empty => true | _ => false end.

  Definition store_new (t : table) (i : nat) (k : K) (v : V) : table :=
    {| vec := upd i (Key k, v) (vec t);
       fill_count := if is_empty (fst (nth i (vec t) (Empty, vnil))) then S (fill_count t) else fill_count t;
       count := S (count t) |}.

  Definition store_old (t : table) (i : nat) (k : K) (v : V) : table :=
    {| vec := upd i (Key k, v) (vec t); fill_count := fill_count t; count := count t |}.

  Definition empty_table (n : nat) : table :=
    {| vec := repeat (Empty, vnil) n; fill_count := 0; count := 0 |}.

  (** 46-58 [:enter] and 65-86 [:extend], mutually recursive; [depth] bounds the nesting of extensions *)
  Fixpoint enter (depth : nat) (t : table) (k : K) (v : V) : option table :=
    match find t k with
    | None => None
    | Some (Found i) => Some (store_old t i k v)
    | Some (Vacant i) =>
        if over (fill_count t) (size t) then
          match depth with
          | O => None
          | S d =>
              (* :extend re-enters every live entry, in index order, into an empty table of twice the size *)
              match fold_left (fun ot e => match ot with
                                           | None => None
                                           | Some t' => match fst e with
                                                        | Key k' => enter d t' k' (snd e)
                                                        | _ => Some t'
                                                        end
                                           end) (vec t) (Some (empty_table (2 * size t))) with
              | None => None
              | Some t' => match find t' k with
                           | Some (Vacant i') => Some (store_new t' i' k v)
                           | Some (Found i') => None  (* index minus size would be negative: error *)
                           | None => None
                           end
              end
          end
        else Some (store_new t i k v)
    end.

  (** 59-64 [:delete] *)
  Definition delete (t : table) (k : K) : option table :=
    match find t k with
    | None => None
    | Some (Vacant _) => Some t
    | Some (Found i) =>
        Some {| vec := upd i (Deleted, vnil) (vec t); fill_count := fill_count t; count := count t - 1 |}
    end.

  (** 121-127 [:clear] *)
  Definition clear (t : table) : table := empty_table (size t).

  (** 111-117 [:list], in the order of the push loop; [:map] (90-96) visits the same pairs in index order *)
  Definition pairs (t : table) : list (K * V) :=
    flat_map (fun e => match fst e with Key k => [(k, snd e)] | _ => [] end) (vec t).
  Definition list_pairs (t : table) : list (K * V) := rev (pairs t).

  (** A user's operations *)
  Inductive op := Put (k : K) (v : V) | Get (k : K) | Rem (k : K) | Clr | Count | ListAll.
  Inductive result := RVal (v : V) | RNone | RCount (n : nat) | RList (l : list (K * V)).

  Definition step (not_found : V) (t : table) (o : op) : option (table * result) :=
    match o with
    | Put k v => match enter 1 t k v with Some t' => Some (t', RVal v) | None => None end
    | Get k => match get not_found t k with Some v => Some (t, RVal v) | None => None end
    | Rem k => match delete t k with Some t' => Some (t', RNone) | None => None end
    | Clr => Some (clear t, RNone)
    | Count => Some (t, RCount (count t))
    | ListAll => Some (t, RList (list_pairs t))
    end.

  Fixpoint run (not_found : V) (t : table) (os : list op) : option (list result) :=
    match os with
    | [] => Some []
    | o :: r => match step not_found t o with
                | None => None
                | Some (t', x) => match run not_found t' r with
                                  | None => None
                                  | Some xs => Some (x :: xs)
                                  end
                end
    end.
End Hash.

Arguments Empty {K}. Arguments Deleted {K}. Arguments Key {K} k.

(** make-hash-table's default rehash factor (151): fill > size / 1.7 *)
Definition over17 (fill size : nat) : bool := 10 * size <? 17 * fill.
(** the :init default factor 2.0 (132) *)
Definition over20 (fill size : nat) : bool := size <? 2 * fill.

(** * queue, 224-256 *)

(** The conses of the queue's list live in a heap; the queue object holds [car] (first cell) and [cdr]
    (last cell). *)
Section Queue.
  Context {X : Type}.
  Record qstate := mkQ { heap : nat -> option (X * option nat); next : nat; qcar : option nat; qcdr : option nat }.

  Definition setcell (h : nat -> option (X * option nat)) (a : nat) (c : X * option nat) :=
    fun b => if b =? a then Some c else h b.

  Definition qinit : qstate := mkQ (fun _ => None) 0 None None.

  (** 240-247 :enqueue; [None] is a dangling or wrongly typed reference *)
  Definition enqueue (q : qstate) (x : X) : option qstate :=
    let a := next q in
    match qcdr q with
    | Some l =>
        match heap q l with
        | Some (y, _) => Some (mkQ (setcell (setcell (heap q) a (x, None)) l (y, Some a)) (S a) (qcar q) (Some a))
        | None => None
        end
    | None => Some (mkQ (setcell (heap q) a (x, None)) (S a) (Some a) (Some a))
    end.

  (** 232-239 :dequeue with error-p nil; the result is [None] in the second component when the queue is
      empty *)
  Definition dequeue (q : qstate) : option (qstate * option X) :=
    match qcar q with
    | None => Some (q, None)
    | Some f =>
        match heap q f with
        | None => None
        | Some (x, nx) =>
            if match qcdr q with Some l => f =? l | None => false end
            then Some (mkQ (heap q) (next q) None None, Some x)
            else Some (mkQ (heap q) (next q) nx (qcdr q), Some x)
        end
    end.

  (** 228-229, 254-255 *)
  Definition qempty (q : qstate) : bool := match qcar q with None => true | Some _ => false end.
  Definition qfirst (q : qstate) : option X :=
    match qcar q with Some f => option_map fst (heap q f) | None => None end.
  Definition qlast (q : qstate) : option X :=
    match qcdr q with Some l => option_map fst (heap q l) | None => None end.

  (** [(length car)]: walk of the cell chain *)
  Fixpoint qwalk (fuel : nat) (h : nat -> option (X * option nat)) (p : option nat) : option nat :=
    match p with
    | None => Some 0
    | Some a => match fuel with
                | O => None
                | S f => match h a with
                         | Some (_, n) => option_map S (qwalk f h n)
                         | None => None
                         end
                end
    end.
  Definition qlength (q : qstate) : option nat := qwalk (next q) (heap q) (qcar q).

  (** 230-231 :trim *)
  Fixpoint qdrop (n : nat) (q : qstate) : option qstate :=
    match n with
    | O => Some q
    | S m => match dequeue q with Some (q', _) => qdrop m q' | None => None end
    end.
  Definition trim (q : qstate) (s : nat) : option qstate :=
    match qlength q with Some n => qdrop (n - s) q | None => None end.

  Inductive qop := Enq (x : X) | Deq | QEmpty | QFirst | QLast | QLength | QTrim (s : nat).
  Inductive qres := QUnit | QVal (x : option X) | QBool (b : bool) | QNat (n : nat).

  Definition qstep (q : qstate) (o : qop) : option (qstate * qres) :=
    match o with
    | Enq x => option_map (fun q' => (q', QUnit)) (enqueue q x)
    | Deq => option_map (fun p => (fst p, QVal (snd p))) (dequeue q)
    | QEmpty => Some (q, QBool (qempty q))
    | QFirst => Some (q, QVal (qfirst q))
    | QLast => Some (q, QVal (qlast q))
    | QLength => option_map (fun n => (q, QNat n)) (qlength q)
    | QTrim s => option_map (fun q' => (q', QUnit)) (trim q s)
    end.

  Fixpoint qrun (q : qstate) (os : list qop) : option (list qres) :=
    match os with
    | [] => Some []
    | o :: r => match qstep q o with
                | None => None
                | Some (q', x) => match qrun q' r with None => None | Some xs => Some (x :: xs) end
                end
    end.
End Queue.
