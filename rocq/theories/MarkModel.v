(** The marker of the garbage collector (lisp/c/memory.c 413-593) over the heap of HeapModel.

    A word is a natural number; the pointer to the cell at word address a is the byte address 8*a
    (eus.h 754 and 770: makepointer and bpointerof are casts).  The elmtype and the class of a cell, which the allocator
    does not use, are given by functions of the address.  Reading the header of something that is not 8-aligned and
    writing past the end of gcstack are [Undef]; loops take fuel, [Hang] when it runs out. *)
From Verif Require Export HeapModel.

Inductive elmtype := ELM_FIXED | ELM_POINTER | ELM_OTHER.       (* eus.h 113-119 *)
Record objs := mkObjs {
  elm : nat -> elmtype;       (* h.elmtype *)
  clo : nat -> bool;          (* pisclosure, eus.h 871 *)
  brk : nat }.                (* the largest sbrk(0) seen by newchunk *)
Definition ispointer (w : nat) : bool := Nat.eqb (w mod 4) 0.  (* eus.h 760 *)
(** memory.c 422, minmemory and maxmemory as set by newchunk (memory.c 91-93): the chunk header is two words before the root cell *)
Definition out_of_heap (o : objs) (s : state) (w : nat) : bool :=
  negb (existsb (fun ck => 8 * fst ck - 16 <=? w) (chunks s) &&
        (existsb (fun ck => w <=? 8 * (fst ck + size (snd ck)) + 7) (chunks s) || (w <=? brk o))).

(** gcstack: its contents, the top first, the index of gcsplimit and the number of words allocated *)
Record gstack := mkG { stk : list nat; lim : nat; cap : nat }.
Definition push (g : gstack) (w : nat) : out gstack := if length (stk g) <? cap g then Ret (mkG (w :: stk g) (lim g) (cap g)) else Undef.
(** memory.c 495-513; the 16 extra bytes are two words *)
Definition newgcstack (g : gstack) : gstack := mkG (stk g) (lim g * 2 - 10) (lim g * 2 + 2).
(** "while (lgcsp+s>gcsplimit) { newgcstack(lgcsp); lgcsp=gcsp;}" *)
Fixpoint make_room (fuel : nat) (g : gstack) (n : nat) : out gstack :=
  match fuel with
  | O => Hang
  | S f => if lim g <? length (stk g) + n then make_room f (newgcstack g) n else Ret g
  end.
(** "for (i=0; i<s; i++) { p2=...[i]; if (ispointer(p2)) gcpush(p2); }": n words from address x on *)
Fixpoint push_words (s : state) (g : gstack) (x n : nat) : out gstack :=
  match n with
  | O => Ret g
  | S n' => do g <- (if ispointer (mem s x) then push g (mem s x) else Ret g); push_words s g (S x) n'
  end.
(** memory.c 460-492: the loop from markloop on; M are the mark bits *)
Fixpoint mark_loop (fuel : nat) (o : objs) (s : state) (M : nat -> bool) (g : gstack) : out ((nat -> bool) * gstack) :=
  match fuel with
  | O => Hang
  | S f =>
      match stk g with
      | [] => Ret (M, g)
      | w :: r =>
          let g := mkG r (lim g) (cap g) in
          if out_of_heap o s w then mark_loop f o s M g else
          if negb (Nat.eqb (w mod 8) 0) then Undef else
          let a := w / 8 in
          if M a then mark_loop f o s M g else
          let M := upd M a true in
          if clo o a then mark_loop f o s M g else
          match elm o a with
          | ELM_FIXED =>
              let n := size (hbix (head s a)) - 1 in
              do g <- make_room fuel g n; do g <- push_words s g (a + 1) n; mark_loop f o s M g
          | ELM_POINTER =>
              let n := size (hbix (head s a)) - 2 in
              do g <- make_room fuel g n; do g <- push_words s g (a + 2) n; mark_loop f o s M g
          | ELM_OTHER => mark_loop f o s M g
          end
      end
  end.
(** memory.c 450-460 mark: the stack starts empty *)
Definition mark (fuel : nat) (o : objs) (s : state) (M : nat -> bool) (g : gstack) (w : nat) : out ((nat -> bool) * gstack) :=
  do g <- push (mkG [] (lim g) (cap g)) w; mark_loop fuel o s M g.

(** What markall starts from.  Of a context: the thread object, the words of the stack up to vsp, the bounds of the
    stack, the specials and lastalloc *)
Record context := mkCtx { threadobj : nat; stack : list nat; stack_lo : nat; stack_hi : nat; specials : nat; lastalloc : nat }.
Record roots := mkRoots { sysobj : nat; pkglist : nat; contexts : list context; classtab : list nat }.
(** one step of markall: mark(w) or markon(q) *)
Inductive action := Mark (w : nat) | Markon (a : nat).
(** memory.c 554-562 *)
Definition stack_root (c : context) (w : nat) : bool := Nat.eqb (w mod 8) 0 && ((w <? stack_lo c) || (stack_hi c <? w)).
(** memory.c 537-587, one context; t is its index *)
Definition context_actions (s : state) (t : nat) (c : context) : list action :=
  Mark (threadobj c) :: map Mark (filter (stack_root c) (stack c)) ++
  flat_map (fun j => map Markon (tbuddy s t j)) (seq 1 (MAXTHRBUDDY - 1)) ++
  Mark (specials c) :: (if negb (Nat.eqb (lastalloc c) 0) && ispointer (lastalloc c) then [Mark (lastalloc c)] else []).
Fixpoint contexts_actions (s : state) (t : nat) (cs : list context) : list action :=
  match cs with [] => [] | c :: r => context_actions s t c ++ contexts_actions s (S t) r end.
(** memory.c 520-593 *)
Definition markall_actions (s : state) (r : roots) : list action :=
  Mark (sysobj r) :: Mark (pkglist r) :: contexts_actions s 0 (contexts r) ++ map Mark (filter ispointer (classtab r)).
Fixpoint run_actions (fuel : nat) (o : objs) (s : state) (M : nat -> bool) (g : gstack) (l : list action) : out ((nat -> bool) * gstack) :=
  match l with
  | [] => Ret (M, g)
  | Mark w :: r => do q <- mark fuel o s M g w; run_actions fuel o s (fst q) (snd q) r
  | Markon a :: r => run_actions fuel o s (upd M a true) g r
  end.
Definition markall (fuel : nat) (o : objs) (s : state) (g : gstack) (r : roots) : out ((nat -> bool) * gstack) :=
  run_actions fuel o s (fun a => hmark (head s a)) g (markall_actions s r).
(** eus.c 511-513, with a size of at least 32 (DEFAULT_MAX_GCSTACK is 131072) *)
Definition new_stack (n : nat) : gstack := mkG [] (n - 10) n.
(** a whole collection, memory.c 778-830: markall, then sweepall.  [gc] sets the mark bits of the cells in [live] itself, so it is given
    the cells that markall has newly marked *)
Definition newly (s : state) (M : nat -> bool) (a : nat) : bool := M a && negb (hmark (head s a)).
Definition collect_garbage (e : env) (o : objs) (s : state) (g : gstack) (r : roots) : out (state * gstack) :=
  do q <- markall (fuel e) o s g r;
  do s' <- gc (mkEnv (malloc e) (short e) (merge_limit e) (newly s (fst q)) (nthr e) (fuel e)) s; Ret (s', snd q).
