(** Sequence functions: lisp/c/sequence.c (POSITION, FIND, COUNT, UNIREMOVE, REMOVE_DUPLICATES, DELETE,
    SUBSTITUTE, NSUBSTITUTE, VECREPLACE, SORT) with their callers in lisp/l/common.l, and the set functions of
    lisp/l/common.l.

    Functions that only read a list take it by value ([list V]); destructive ones work on the heap of ListModel.
    Vectors are their element sequences ([list V]): element types and coercion are left out, as are arrays with
    an entity vector.  Test and key functions are pure.  [start] and [end] are naturals.  Lisp-level :start, :end and
    :count arguments reach the C code unchanged. *)
From Coq Require Export Permutation.
From Verif Require Export ListModel.

Section Tests.
Context {V : Type}.

(** The argument block (item test test-not key if-test if-not-test); [None] is NIL, for [test] it is #'eq. *)
Record tests := mkTests { t_item : V; t_eq : V -> V -> bool; t_test : option (V -> V -> bool);
                          t_testnot : option (V -> V -> bool); t_key : V -> V;
                          t_if : option (V -> bool); t_ifnot : option (V -> bool) }.

(** sequence.c 663-668: the dispatch repeated in every function *)
Definition testresult (t : tests) (element : V) : bool :=
  let e := t_key t element in
  match t_ifnot t with
  | Some f => negb (f e)
  | None => match t_if t with
            | Some f => f e
            | None => match t_testnot t with
                      | Some f => negb (f (t_item t) e)
                      | None => match t_test t with
                                | Some f => f (t_item t) e
                                | None => t_eq t (t_item t) e
                                end
                      end
            end
  end.

(** sequence.c 520-557 POSITION.  [rest] is what is left of the list or vector from index [start]; [n] is the
    number of iterations left, end-start. *)
Fixpoint position_loop (p : V -> bool) (n : nat) (rest : list V) (start : nat) (count : nat) : option nat :=
  match n with
  | O => None
  | S n' =>
      match rest with
      | [] => None
      | e :: r => if p e then (if count <=? 1 then Some start else position_loop p n' r (S start) (count - 1))
                  else position_loop p n' r (S start) count
      end
  end.
(** for a list the cursor stops at the end: (not islist) returns NIL *)
Definition POSITION_list (t : tests) (l : list V) (start end_ count : nat) : option nat :=
  match skipn start l with [] => None | rest => position_loop (testresult t) (end_ - start) rest start count end.
Definition POSITION_vec (t : tests) (v : list V) (start end_ count : nat) : option nat :=
  position_loop (testresult t) (Nat.min end_ (length v) - start) (skipn start v) start count.

(** sequence.c 559-598 FIND *)
Fixpoint find_loop (p : V -> bool) (n : nat) (rest : list V) : option V :=
  match n, rest with
  | S n', e :: r => if p e then Some e else find_loop p n' r
  | _, _ => None
  end.
Definition FIND_list (t : tests) (l : list V) (start end_ : nat) : option V :=
  match skipn start l with [] => None | rest => find_loop (testresult t) (end_ - start) rest end.
Definition FIND_vec (t : tests) (v : list V) (start end_ : nat) : option V :=
  find_loop (testresult t) (Nat.min end_ (length v) - start) (skipn start v).

(** sequence.c 600-639 COUNT; [None] is the value NIL *)
Fixpoint count_loop (p : V -> bool) (n : nat) (rest : list V) (i : nat) : nat :=
  match n, rest with
  | S n', e :: r => count_loop p n' r (if p e then S i else i)
  | _, _ => i
  end.
Definition COUNT_list (t : tests) (l : list V) (start end_ : nat) : option nat :=
  match l with
  | [] => Some 0
  | _ => match skipn start l with [] => None | rest => Some (count_loop (testresult t) (end_ - start) rest 0) end
  end.
Definition COUNT_vec (t : tests) (v : list V) (start end_ : nat) : option nat :=
  Some (count_loop (testresult t) (Nat.min end_ (length v) - start) (skipn start v) 0).

(** sequence.c 641-679 UNIREMOVE: the loop at 656-671.  The result is the stack (topmost first) and the rest of
    the sequence at the moment the loop ends. *)
Fixpoint remove_loop (p : V -> bool) (n count : nat) (rest stk : list V) : out (list V * list V) :=
  match n, count with
  | S n', S c => match rest with
                 | [] => Error
                 | e :: r => if p e then remove_loop p n' c r stk else remove_loop p n' count r (e :: stk)
                 end
  | _, _ => Ret (stk, rest)
  end.
(** list: what is left of the list is kept as the tail (672-674) *)
Definition UNIREMOVE_list (t : tests) (l : list V) (start end_ count : nat) : out (list V) :=
  match l with
  | [] => Ret []
  | _ => do (stk, rest) <- remove_loop (testresult t) (end_ - start) count (skipn start l) (rev (firstn start l));
         Ret (rev stk ++ rest)
  end.
(** vector: the elements from [end] on are pushed (676-677), whatever index the loop has reached *)
Definition UNIREMOVE_vec (t : tests) (v : list V) (start end_ count : nat) : out (list V) :=
  let e := Nat.min end_ (length v) in
  do (stk, _) <- remove_loop (testresult t) (e - start) count (skipn start v) (rev (firstn start v));
  Ret (rev stk ++ skipn e v).

(** sequence.c 773-813 SUBSTITUTE *)
Fixpoint subst_loop (p : V -> bool) (new : V) (n count : nat) (rest stk : list V) : out (list V * list V) :=
  match n, count with
  | S n', S c => match rest with
                 | [] => Error
                 | e :: r => if p e then subst_loop p new n' c r (new :: stk) else subst_loop p new n' count r (e :: stk)
                 end
  | _, _ => Ret (stk, rest)
  end.
Definition SUBSTITUTE_list (t : tests) (new : V) (l : list V) (start end_ count : nat) : out (list V) :=
  match l with
  | [] => Ret []
  | _ => do (stk, rest) <- subst_loop (testresult t) new (end_ - start) count (skipn start l) (rev (firstn start l));
         Ret (rev stk ++ rest)
  end.
Definition SUBSTITUTE_vec (t : tests) (new : V) (v : list V) (start end_ count : nat) : out (list V) :=
  let e := Nat.min end_ (length v) in
  do (stk, _) <- subst_loop (testresult t) new (e - start) count (skipn start v) (rev (firstn start v));
  Ret (rev stk ++ skipn e v).

(** vector store *)
Fixpoint vset (i : nat) (x : V) (v : list V) : list V :=
  match v, i with [], _ => [] | _ :: r, O => x :: r | y :: r, S j => y :: vset j x r end.

(** sequence.c 815-853 NSUBSTITUTE on a vector *)
Fixpoint nsubst_vec_loop (p : V -> bool) (new d : V) (n count start : nat) (v : list V) : list V :=
  match n, count with
  | S n', S c => if p (nth start v d) then nsubst_vec_loop p new d n' c (S start) (vset start new v)
                 else nsubst_vec_loop p new d n' count (S start) v
  | _, _ => v
  end.
Definition NSUBSTITUTE_vec (t : tests) (new : V) (v : list V) (start end_ count : nat) : list V :=
  nsubst_vec_loop (testresult t) new new (Nat.min end_ (length v) - start) count start v.

(** sequence.c 723-771 DELETE on a vector: kept elements are moved down to [last]; the size becomes [last] *)
Fixpoint delete_vec_loop (p : V -> bool) (d : V) (n count start last : nat) (v : list V) : list V * nat :=
  match n, count with
  | S n', S c =>
      let e := nth start v d in
      if p e then delete_vec_loop p d n' c (S start) last v
      else delete_vec_loop p d n' count (S start) (S last) (if Nat.eqb start last then v else vset last e v)
  | _, _ => (v, last)
  end.
Definition DELETE_vec (t : tests) (v : list V) (start end_ count : nat) : list V :=
  let '(v1, last) := delete_vec_loop (testresult t) (t_item t) (Nat.min end_ (length v) - start) count start start v in
  firstn last v1.

(** sequence.c 681-721 REMOVE_DUPLICATES; [q] is the test on keyed elements, in the order of the call *)
Fixpoint dup_in (q : V -> V -> bool) (e : V) (n : nat) (rest : list V) : bool :=
  match n, rest with S n', x :: r => if q e x then true else dup_in q e n' r | _, _ => false end.
Fixpoint dup_loop (q : V -> V -> bool) (n : nat) (rest stk : list V) : list V * list V :=
  match n, rest with
  | S n', e :: r => dup_loop q n' r (if dup_in q e n' r then stk else e :: stk)
  | _, _ => (stk, rest)
  end.
Definition dup_test (t : tests) (x y : V) : bool :=
  match t_testnot t with
  | Some f => negb (f (t_key t x) (t_key t y))
  | None => match t_test t with Some f => f (t_key t x) (t_key t y) | None => t_eq t (t_key t x) (t_key t y) end
  end.
Definition REMOVE_DUPLICATES_list (t : tests) (l : list V) (start end_ : nat) : list V :=
  let '(stk, rest) := dup_loop (dup_test t) (end_ - start) (skipn start l) (rev (firstn start l)) in rev stk ++ rest.
Definition REMOVE_DUPLICATES_vec (t : tests) (v : list V) (start end_ : nat) : list V :=
  let e := Nat.min end_ (length v) in
  let '(stk, _) := dup_loop (dup_test t) (e - start) (skipn start v) (rev (firstn start v)) in rev stk ++ skipn e v.

(** ** the set functions of common.l 383-429; [m x l] is (member x l :test test :test-not test-not :key key),
    [key] the key function *)
Definition member_of (t : tests) (x : V) (l : list V) : bool :=
  existsb (fun y => match t_testnot t with
                    | Some f => negb (f x (t_key t y))
                    | None => match t_test t with Some f => f x (t_key t y) | None => t_eq t x (t_key t y) end
                    end) l.
Definition adjoin (t : tests) (item : V) (l : list V) : list V := if member_of t item l then l else item :: l.
Definition union_step (t : tests) (result : list V) (item : V) : list V :=
  if member_of t (t_key t item) result then result else item :: result.
Definition union (t : tests) (l1 l2 : list V) : list V := rev (fold_left (union_step t) l2 (fold_left (union_step t) l1 [])).
Definition intersection (t : tests) (l1 l2 : list V) : list V :=
  fold_left (fun r item => if member_of t (t_key t item) l2 then item :: r else r) l1 [].
Definition set_difference (t : tests) (l1 l2 : list V) : list V :=
  rev (fold_left (fun r item => if member_of t (t_key t item) l2 then r else item :: r) l1 []).
(** the keyed element is tested and, if it is not found, pushed *)
Definition set_exclusive_or (t : tests) (l1 l2 : list V) : list V :=
  fold_left (fun r x => if member_of t (t_key t x) l2 then r else t_key t x :: r) l1 [] ++
  fold_left (fun r x => if member_of t (t_key t x) l1 then r else t_key t x :: r) l2 [].
Definition subsetp (t : tests) (sub super : list V) : bool := forallb (fun s => member_of t s super) sub.

(** ** sequence.c 858-942 VECREPLACE for vectors of one element type.  [src = None] means source and destination
    are the same vector.  A negative count becomes a huge size_t.  Other element types than bit are copied with memcpy, which is undefined for overlapping
    ranges; accesses beyond a vector are undefined too.  Bit vectors go through the stack (or word by word from
    index 0 to index 0). *)
Fixpoint store_range (v : list V) (ds : nat) (xs : list V) : list V :=
  match xs with [] => v | x :: r => store_range (vset ds x v) (S ds) r end.
Definition VECREPLACE (bit : bool) (dest : list V) (src : option (list V)) (ds de ss se : nat) : out (list V) :=
  let s := match src with Some s => s | None => dest end in
  let count := Nat.min (de - ds) (se - ss) in
  if (de <? ds) || (se <? ss) then (if bit then Ret dest else Undef) else
  if Nat.eqb count 0 then Ret dest else
  if (length s <? ss + count) || (length dest <? ds + count) then Undef else
  let overlap := match src with None => (ss <? ds + count) && (ds <? ss + count) | Some _ => false end in
  if negb bit && overlap then Undef else
  Ret (store_range dest ds (firstn count (skipn ss s))).

(** ** sequence.c 953-978 compar and the libc qsort.  qsort is not part of the code base; it is modelled by the
    merge sort glibc uses (stdlib/msort.c, msort_with_tmp): split at n/2, sort both halves, merge taking from
    the first half while compar <= 0. *)
Definition compar (pred : V -> V -> bool) (x y : V) : Z := if pred x y then (-1)%Z else 1%Z.
Fixpoint merge (cmp : V -> V -> Z) (l1 : list V) : list V -> list V :=
  fix inner (l2 : list V) : list V :=
    match l1, l2 with
    | [], _ => l2
    | _, [] => l1
    | x :: r1, y :: r2 => if (cmp x y <=? 0)%Z then x :: merge cmp r1 l2 else y :: inner r2
    end.
Fixpoint msort (fuel : nat) (cmp : V -> V -> Z) (l : list V) : list V :=
  match fuel with
  | O => l
  | S f => match l with
           | [] | [_] => l
           | _ => let n1 := length l / 2 in merge cmp (msort f cmp (firstn n1 l)) (msort f cmp (skipn n1 l))
           end
  end.
Definition qsort (cmp : V -> V -> Z) (l : list V) : list V := msort (length l) cmp l.

(** sequence.c 980- SORT on a vector of pointers, integers or floats; [key] is applied when given *)
Definition SORT_vec (pred : V -> V -> bool) (key : V -> V) (v : list V) : list V :=
  qsort (compar (fun x y => pred (key x) (key y))) v.
End Tests.
Arguments tests : clear implicits.

(** SORT on a string or byte vector: compar reads the elements through (char * ), sequence.c 960-961 *)
Definition schar (b : Z) : Z := if (b <? 128)%Z then b else (b - 256)%Z.
Definition SORT_string (pred : Z -> Z -> bool) (key : Z -> Z) (s : list Z) : list Z :=
  qsort (compar (fun x y => pred (key (schar x)) (key (schar y)))) s.

(** SORT on a list: the cars are pushed, sorted on the stack and written back *)
Definition SORT_list (fuel : nat) (pred : val -> val -> bool) (key : val -> val) (h : heap) (v : val) : out (heap * val) :=
  match v with
  | Nil => Ret (h, Nil)
  | Atom _ => Ret (h, v)
  | Ptr _ => do (stk, _) <- push_cars fuel h v [];
             do h1 <- write_cars h v (qsort (compar (fun x y => pred (key x) (key y))) (rev stk)); Ret (h1, v)
  end.

(** ** destructive list functions *)
(** "for (i=0; i<start; i++) if (iscons(seq)) seq=ccdr(seq); else error" *)
Fixpoint advance (i : nat) (h : heap) (v : val) : out val :=
  match i with O => Ret v | S j => match v with Ptr a => advance j h (cdr h a) | _ => Error end end.

(** sequence.c 837-852 NSUBSTITUTE on a list *)
Fixpoint nsubst_list_loop (p : val -> bool) (new : val) (n count : nat) (h : heap) (seq : val) : out heap :=
  match n, count with
  | S n', S c => match seq with
                 | Ptr a => if p (car h a) then let h1 := set_car h a new in nsubst_list_loop p new n' c h1 (cdr h1 a)
                            else nsubst_list_loop p new n' count h (cdr h a)
                 | _ => Error
                 end
  | _, _ => Ret h
  end.
Definition NSUBSTITUTE_list (t : tests val) (new : val) (h : heap) (v : val) (start end_ count : nat) : out (heap * val) :=
  match v with
  | Nil => Ret (h, Nil) | Atom _ => Error
  | Ptr _ => do s <- advance start h v; do h1 <- nsubst_list_loop (testresult t) new (end_ - start) count h s; Ret (h1, v)
  end.

(** sequence.c 739-770 DELETE on a list *)
Fixpoint delete_list_loop (p : val -> bool) (n count : nat) (h : heap) (seq result : val) (lastseq : val) (first : bool) : out (heap * val) :=
  match n, count with
  | S n', S c =>
      match seq with
      | Ptr a =>
          if p (car h a) then
            if first then delete_list_loop p n' c h (cdr h a) (cdr h a) lastseq first
            else match lastseq with
                 | Ptr l => let h1 := set_cdr h l (cdr h a) in delete_list_loop p n' c h1 (cdr h1 a) result lastseq false
                 | _ => Undef
                 end
          else delete_list_loop p n' count h (cdr h a) result seq false
      | _ => Error
      end
  | _, _ => Ret (h, result)
  end.
Definition DELETE_list (t : tests val) (h : heap) (v : val) (start end_ count : nat) : out (heap * val) :=
  match v with
  | Nil => Ret (h, Nil) | Atom _ => Error
  | Ptr _ => do s <- advance start h v;
             delete_list_loop (testresult t) (end_ - start) count h s v s (Nat.eqb start 0)
  end.

(** common.l 541-565 replace from list to list: (dotimes (c count) (setq (dest . car) (pop src)) (pop dest)) *)
Fixpoint replace_loop (count : nat) (h : heap) (dest src : val) : out heap :=
  match count with
  | O => Ret h
  | S c =>
      match dest with
      | Ptr d => match src with
                 | Ptr s => let h1 := set_car h d (car h s) in replace_loop c h1 (cdr h1 d) (cdr h s)
                 | Nil => replace_loop c (set_car h d Nil) (cdr h d) Nil
                 | Atom _ => Error
                 end
      | _ => Error
      end
  end.
Definition replace_list (h : heap) (dest src : val) (s1 e1 s2 e2 : nat) : out (heap * val) :=
  do d <- NTHCDR h (Z.of_nat s1) dest;
  do s <- NTHCDR h (Z.of_nat s2) src;
  do h1 <- replace_loop (Nat.min (e1 - s1) (e2 - s2)) h d s;
  Ret (h1, dest).

(** common.l 967-983 merge-list, on the values of the two lists: the cells are relinked, never copied, so the order
    in which elements are linked is all there is to it.  [nil] is NIL, the car of an empty list; [pred] gives [None]
    where the predicate signals an error, as (< nil 3) does.  [key] is already part of [pred]. *)
Section MergeList.
Context {V : Type} (nil : V) (pred : V -> V -> option bool).
(** 968-970: elements of list2 that go before list1 *)
Fixpoint ml_front (x1 : V) (list2 result : list V) : out (list V * list V) :=
  match list2 with
  | [] => Ret (rev result, [])
  | y :: r => match pred x1 y with
              | None => Error
              | Some false => ml_front x1 r (y :: result)
              | Some true => Ret (rev result, list2)
              end
  end.
(** 975: (while (and p1 (funcall pred (cadr p1) e2)) (pop p1)); p1 is the cell holding [x], with cdr [rest];
    [linked] are the elements before it, last first *)
Fixpoint ml_inner (linked : list V) (x : V) (rest : list V) (e2 : V) : out (list V * option (V * list V)) :=
  match pred (hd nil rest) e2 with
  | None => Error
  | Some false => Ret (linked, Some (x, rest))
  | Some true => match rest with [] => Ret (x :: linked, None) | y :: r => ml_inner (x :: linked) y r e2 end
  end.
(** 973-982 *)
Fixpoint ml_outer (linked : list V) (x : V) (rest list2 : list V) : out (list V) :=
  match list2, rest with
  | e2 :: l2, _ :: _ =>
      do (linked1, p1) <- ml_inner linked x rest e2;
      match p1 with
      | None => Ret (rev linked1 ++ list2)
      | Some (x1, rest1) => ml_outer (x1 :: linked1) e2 rest1 l2
      end
  | _, _ => Ret (rev (x :: linked) ++ rest ++ list2)
  end.
Definition merge_list (list1 list2 : list V) : out (list V) :=
  do (result, list2') <- ml_front (hd nil list1) list2 [];
  match list1 with
  | [] => Ret (result ++ list2')
  | x :: rest => do r <- ml_outer [] x rest list2'; Ret (result ++ r)
  end.
End MergeList.
(** common.l 985-1003 merge for result classes other than cons *)
Definition merge_vec {V} (pred : V -> V -> bool) (seq1 seq2 : list V) : list V := merge (compar pred) seq1 seq2.
