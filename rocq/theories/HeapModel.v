(** The memory allocator (lisp/c/memory.c 67-404 and 596-742, lisp/c/eus.c 490-505): Fibonacci buddy cells, the root
    free lists, the free lists of the threads, splitting, allocation, sweeping and merging.

    Addresses are word addresses.  The header fields used by the allocator are kept (mark, b, m, bix, nodispose).
    [mem] is the memory itself: every header that is stored, every nextbcell link and the zeroing of an allocated cell
    write to it, so that damage to the contents of other cells would be seen.  The free lists are Coq lists, the
    links stored in [mem] are not read back.  Left to parameters: the
    address malloc gives to a new chunk, the comparison of freeheap with the float margin, and the set of
    cells the marker marks (see MarkModel for the marker).  malloc never fails.  Closing the file streams among the reclaimed
    cells and calling the :dispose methods are left out.  Loops take fuel, [Hang] when it runs out. *)
From Verif Require Export ListModel.

(** eus.c 492-497: buddysize *)
Fixpoint size2 (k : nat) : nat * nat := match k with O => (3, 3) | S k' => let '(a, b) := size2 k' in (b, a + b) end.
Definition size (k : nat) : nat := fst (size2 k).
Definition MAXBUDDY : nat := 40.           (* eus.h 138 *)
Definition DEFAULTCHUNKINDEX : nat := 16.  (* eus.h 137 *)
Definition MAXTHRBUDDY : nat := 6.         (* eus.h 143 *)
Definition buddyfill (i : nat) : nat := nth i [0; 500; 300; 20; 15; 10; 0] 0.   (* memory.c 269 *)

Record hdr := mkHdr { hmark : bool; hb : bool; hm : bool; hbix : nat; hnod : bool }.
Record state := mkState {
  head : nat -> hdr;                        (* headers *)
  buddy : nat -> list nat; cnt : nat -> Z;  (* root free lists and their counters *)
  tbuddy : nat -> nat -> list nat; tcnt : nat -> nat -> Z;   (* free lists of each thread *)
  chunks : list (nat * nat);                (* root cell address and index; the newest first *)
  freeheap : Z; totalheap : Z;
  mem : nat -> nat }.                       (* all words, headers included *)

Definition upd {A} (f : nat -> A) (i : nat) (x : A) : nat -> A := fun j => if Nat.eqb j i then x else f j.
Definition upd2 {A} (f : nat -> nat -> A) (t i : nat) (x : A) : nat -> nat -> A := fun u j => if Nat.eqb u t && Nat.eqb j i then x else f u j.
(** the header as a word; only that it is some word matters *)
Definition hword (h : hdr) : nat := hbix h * 16 + (if hmark h then 8 else 0) + (if hb h then 4 else 0) + (if hm h then 2 else 0) + (if hnod h then 1 else 0).
Definition set_head (s : state) (a : nat) (h : hdr) : state :=
  mkState (upd (head s) a h) (buddy s) (cnt s) (tbuddy s) (tcnt s) (chunks s) (freeheap s) (totalheap s) (upd (mem s) a (hword h)).
(** store a nextbcell link (the first word after the header), a byte address *)
Definition set_next (s : state) (a : nat) (l : list nat) : state :=
  mkState (head s) (buddy s) (cnt s) (tbuddy s) (tcnt s) (chunks s) (freeheap s) (totalheap s) (upd (mem s) (a + 1) (8 * hd 0 l)).
(** a store by the program *)
Definition set_word (s : state) (x v : nat) : state :=
  mkState (head s) (buddy s) (cnt s) (tbuddy s) (tcnt s) (chunks s) (freeheap s) (totalheap s) (upd (mem s) x v).
Definition zero_cell (s : state) (a k : nat) : state :=
  mkState (head s) (buddy s) (cnt s) (tbuddy s) (tcnt s) (chunks s) (freeheap s) (totalheap s)
    (fun y => if (a <? y) && (y <? a + size k) then 0 else mem s y).
Definition set_buddy (s : state) (k : nat) (l : list nat) (c : Z) : state :=
  mkState (head s) (upd (buddy s) k l) (upd (cnt s) k c) (tbuddy s) (tcnt s) (chunks s) (freeheap s) (totalheap s) (mem s).
Definition set_tbuddy (s : state) (t k : nat) (l : list nat) (c : Z) : state :=
  mkState (head s) (buddy s) (cnt s) (upd2 (tbuddy s) t k l) (upd2 (tcnt s) t k c) (chunks s) (freeheap s) (totalheap s) (mem s).
Definition add_free (s : state) (z : Z) : state :=
  mkState (head s) (buddy s) (cnt s) (tbuddy s) (tcnt s) (chunks s) (freeheap s + z) (totalheap s) (mem s).

(** memory.c 67-158: the new root cell replaces the whole free list of its index *)
Definition newchunk (malloc : state -> nat -> nat) (s : state) (k : nat) : state * nat :=
  let k := if k <? DEFAULTCHUNKINDEX then DEFAULTCHUNKINDEX else k in
  let a := malloc s k in
  let h := mkHdr false true false k false in
  (mkState (upd (head s) a h) (upd (buddy s) k [a]) (upd (cnt s) k (cnt s k + 1)%Z)
     (tbuddy s) (tcnt s) ((a, k) :: chunks s) (freeheap s + Z.of_nat (size k)) (totalheap s + Z.of_nat (size k))
     (upd (upd (mem s) a (hword h)) (a + 1) 0), k).

(** memory.c 160-212 *)
Definition splitheap (s : state) (k : nat) : out state :=
  match buddy s k with
  | [] => Undef
  | b1 :: bnext =>
      let s := set_buddy s k bnext (cnt s k - 1) in
      let b2 := b1 + size (k - 1) in
      let h1 := head s b1 in
      let s := if Nat.eqb k 2
               then let s := set_next (set_next s b1 [b2]) b2 (buddy s (k - 1)) in
                    set_buddy s (k - 1) (b1 :: b2 :: buddy s (k - 1)) (cnt s (k - 1) + 2)
               else let s := set_next s b1 (buddy s (k - 1)) in
                    let s := set_buddy s (k - 1) (b1 :: buddy s (k - 1)) (cnt s (k - 1) + 1) in
                    let s := set_next s b2 (buddy s (k - 2)) in
                    set_buddy s (k - 2) (b2 :: buddy s (k - 2)) (cnt s (k - 2) + 1) in
      let s := set_head s b2 (mkHdr false true (hm h1) (if Nat.eqb k 2 then 1 else k - 2) false) in
      Ret (set_head s b1 (mkHdr (hmark h1) false (hb h1) (k - 1) false))
  end.

(** "while (buddy[k].bp==0) k++;" with the sentinel at MAXBUDDY *)
Fixpoint find_from (n : nat) (s : state) (k : nat) : nat :=
  match n with
  | O => k
  | S n' => match buddy s k with [] => find_from n' s (S k) | _ => k end
  end.
Definition find_free (s : state) (k : nat) : nat := find_from (MAXBUDDY - k) s k.

(** memory.c 596-629 reclaim, without the closing of streams *)
Definition reclaim (s : state) (p : nat) : state :=
  let k := hbix (head s p) in
  let s := set_next s p (buddy s k) in
  add_free (set_buddy s k (p :: buddy s k) (cnt s k + 1)) (Z.of_nat (size k)).
Definition nextbuddy (s : state) (p : nat) : nat := p + size (hbix (head s p)).

(** memory.c 632-662: [merge_loop] is the while loop with the current np *)
Fixpoint merge_loop (fuel : nat) (s : state) (p np cbix : nat) : out (state * nat) :=
  match fuel with
  | O => Hang
  | S f =>
      if negb (hb (head s p)) && (hbix (head s p) <? cbix) then
        if hmark (head s np) then Ret (s, np) else
        if hnod (head s np) then Ret (s, np) else
        do r <- merge_loop f s np (nextbuddy s np) cbix;
        let '(s, p2) := r in
        if hb (head s np) then
          let h := head s p in
          merge_loop f (set_head s p (mkHdr (hmark h) (hm h) (hm (head s np)) (hbix h + 1) (hnod h))) p p2 cbix
        else Ret (reclaim s np, p2)
      else Ret (s, np)
  end.
Definition mergecell (fuel : nat) (s : state) (p cbix : nat) : out (state * nat) := merge_loop fuel s p (nextbuddy s p) cbix.

(** memory.c 664-707: one chunk; [disp] collects the cells to be disposed of *)
Fixpoint sweep_loop (fuel : nat) (s : state) (p tail cbix : nat) (gcmerge : Z) (disp : list nat) : out (state * list nat) :=
  match fuel with
  | O => Hang
  | S f =>
      if p <? tail then
        let h := head s p in
        if hmark h then sweep_loop f (set_head s p (mkHdr false (hb h) (hm h) (hbix h) (hnod h))) (nextbuddy s p) tail cbix gcmerge disp
        else if hnod h then sweep_loop f s (nextbuddy s p) tail cbix gcmerge (if 256 <=? length disp then disp else disp ++ [p])
        else if (freeheap s <? gcmerge)%Z then sweep_loop f (reclaim s p) (nextbuddy s p) tail cbix gcmerge disp
        else do r <- mergecell f s p cbix; let '(s, np) := r in sweep_loop f (reclaim s p) np tail cbix gcmerge disp
      else Ret (s, disp)
  end.
Fixpoint sweep_chunks (fuel : nat) (s : state) (cs : list (nat * nat)) (gcmerge : Z) (disp : list nat) : out (state * list nat) :=
  match cs with
  | [] => Ret (s, disp)
  | (c, k) :: r => do q <- sweep_loop fuel s c (c + size k) k gcmerge disp; sweep_chunks fuel (fst q) r gcmerge (snd q)
  end.
(** memory.c 709-720: only the flag is cleared here *)
Fixpoint call_disposers (s : state) (ps : list nat) : state :=
  match ps with
  | [] => s
  | p :: r => let h := head s p in call_disposers (set_head s p (mkHdr (hmark h) (hb h) (hm h) (hbix h) false)) r
  end.
(** memory.c 722-742: the lists 0 .. MAXBUDDY-2 are emptied *)
Definition sweepall (fuel : nat) (gcmerge : state -> Z) (s : state) : out state :=
  let g := gcmerge s in
  let s := mkState (head s) (fun i => if i <? MAXBUDDY - 1 then [] else buddy s i) (fun i => if i <? MAXBUDDY - 1 then 0%Z else cnt s i)
             (tbuddy s) (tcnt s) (chunks s) 0 (totalheap s) (mem s) in
  do q <- sweep_chunks fuel s (chunks s) g []; Ret (call_disposers (fst q) (snd q)).
(** markall (memory.c 520-593) as seen from the allocator: the cells in [live] and the cells of the free lists of
    the first [nthr] threads are marked *)
Definition memb (a : nat) (l : list nat) : bool := existsb (Nat.eqb a) l.
Definition in_threads (s : state) (nthr : nat) (a : nat) : bool :=
  existsb (fun t => existsb (fun i => memb a (tbuddy s t i)) (seq 1 (MAXTHRBUDDY - 1))) (seq 0 nthr).
Definition marks (s : state) (nthr : nat) (live : nat -> bool) : state :=
  let H := fun a => let h := head s a in if live a || in_threads s nthr a then mkHdr true (hb h) (hm h) (hbix h) (hnod h) else h in
  mkState H (buddy s) (cnt s) (tbuddy s) (tcnt s) (chunks s) (freeheap s) (totalheap s)
    (fun a => if live a || in_threads s nthr a then hword (H a) else mem s a).
(** what the allocator is run with *)
Record env := mkEnv { malloc : state -> nat -> nat; short : state -> bool; merge_limit : state -> Z; live : nat -> bool; nthr : nat; fuel : nat }.
Definition gc (e : env) (s : state) : out state := sweepall (fuel e) (merge_limit e) (marks s (nthr e) (live e)).

(** "while (freeheap < margin) newchunk(req)" *)
Fixpoint fill_margin (fuel : nat) (e : env) (s : state) (k : nat) : out state :=
  match fuel with
  | O => Hang
  | S f => if short e s then fill_margin f e (fst (newchunk (malloc e) s k)) k else Ret s
  end.
(** "while (req<k) { splitheap(k--,buddy); if (k>req) k--;}" *)
Fixpoint split_down (fuel : nat) (s : state) (req k : nat) : out state :=
  match fuel with
  | O => Hang
  | S f => if req <? k then do s <- splitheap s k; let k := k - 1 in split_down f s req (if req <? k then k - 1 else k) else Ret s
  end.
(** memory.c 214-261.  [small]: buddysize[req]<totalheap/8 *)
Definition root_alloc_big (e : env) (s : state) (req : nat) : out (state * nat * bool) :=
  let k := find_free s req in
  do r <- (if MAXBUDDY <=? k then
             do r <- (if (Z.of_nat (size req) <? totalheap s / 8)%Z then
                        do s <- gc e s; do s <- fill_margin (fuel e) e s req; Ret (s, find_free s req, true)
                      else Ret (s, k, false));
             let '(s, k, g) := r in
             if MAXBUDDY <=? k then let '(s, k) := newchunk (malloc e) s req in Ret (s, k, g) else Ret (s, k, g)
           else Ret (s, k, false));
  let '(s, k, g) := r in
  do s <- split_down (S k) s req k;
  match buddy s req with
  | [] => Undef
  | b :: b2 =>
      let s := zero_cell s b req in
      Ret (add_free (set_buddy s req b2 (cnt s req - 1)) (- Z.of_nat (size req)), b, g)
  end.

(** memory.c 263-326.  [collect]: the inner while loop that collects k cells of index i in the root list;
    [None] is "goto alloc_again" *)
Fixpoint collect (fuel : nat) (e : env) (s : state) (i : nat) (k : Z) (collected : bool) : out (option state * state) :=
  match fuel with
  | O => Hang
  | S f =>
      if (cnt s i <? k)%Z then
        let j := find_free s (S i) in
        if (MAXBUDDY <=? j) && negb collected then do s <- gc e s; Ret (None, s) else
        do r <- (if MAXBUDDY <=? j then
                   do s' <- fill_margin (HeapModel.fuel e) e s DEFAULTCHUNKINDEX;
                   Ret (s', if Nat.eqb (length (chunks s')) (length (chunks s)) then j else DEFAULTCHUNKINDEX)
                 else Ret (s, j));
        let '(s, j) := r in
        let '(s, j) := if MAXBUDDY <=? j then newchunk (malloc e) s DEFAULTCHUNKINDEX else (s, j) in
        do s <- splitheap s j;
        collect f e s i k collected
      else Ret (Some s, s)
  end.
(** "while (k>0) { b2=b; b->h.cix=0; b=b->b.nextbcell; k--;}": the first k cells; the list must not end *)
Definition take_cells (l : list nat) (k : nat) : out (list nat * list nat) :=
  if k <=? length l then Ret (firstn k l, skipn k l) else Undef.
(** the for loop from index i on *)
Fixpoint refill (fuel : nat) (e : env) (t : nat) (s : state) (i : nat) (collected : bool) : out (state * bool) :=
  match fuel with
  | O => Hang
  | S f =>
      if i <? MAXTHRBUDDY then
        let k := (Z.of_nat (buddyfill i) - tcnt s t i)%Z in
        do r <- collect (HeapModel.fuel e) e s i k collected;
        match r with
        | (None, s) => refill f e t s 1 true
        | (Some s, _) =>
            if (0 <? k)%Z then
              do q <- take_cells (buddy s i) (Z.to_nat k);
              let '(taken, rest) := q in
              let s := set_next s (last taken 0) (tbuddy s t i) in
              let s := set_tbuddy s t i (taken ++ tbuddy s t i) (Z.of_nat (buddyfill i)) in
              refill f e t (add_free (set_buddy s i rest (cnt s i - k)) (- (Z.of_nat (size i) * k))) (S i) collected
            else refill f e t s (S i) collected
        end
      else Ret (s, collected)
  end.
Definition root_alloc_small (e : env) (t : nat) (s : state) : out (state * bool) := refill (fuel e) e t s 1 false.

(** memory.c 329-404 gc_alloc, up to the filling of the slots with NIL: [n] words are requested; the result is the cell and whether a collection took place *)
Fixpoint index_for (n : nat) (ss req : nat) : nat :=
  match n with O => req | S n' => if size req <? ss then index_for n' ss (S req) else req end.
Definition gc_alloc (e : env) (t : nat) (s : state) (n : nat) : out (state * nat * bool) :=
  let ss := Nat.max 3 (n + 1) in
  let req := index_for MAXBUDDY ss 1 in
  if MAXBUDDY <=? req then Undef else
  do r <- (if MAXTHRBUDDY <=? req then root_alloc_big e s req
           else do q <- (if (tcnt s t req =? 0)%Z then root_alloc_small e t s else Ret (s, false));
                let '(s, g) := q in
                match tbuddy s t req with
                | [] => Undef
                | b :: rest =>
                    let s := zero_cell s b req in
                    Ret (set_tbuddy s t req rest (tcnt s t req - 1), b, g)
                end);
  let '(s, b, g) := r in
  let h := head s b in
  Ret (set_head s b (mkHdr (hmark h) (hb h) (hm h) (hbix h) false), b, g).
