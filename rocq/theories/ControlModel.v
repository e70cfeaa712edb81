(** Model of the control stack of the evaluator: special bindings (lisp/c/eval.c:133-178), catch, throw, block,
    return-from, unwind-protect and let (lisp/c/specials.c:365-735), unwind (lisp/c/eus.c:274-294), the frames
    made by mkcatchframe and makeblock (lisp/c/makes.c:769-783, 804-818) and the call of a function or of a
    cleanup closure (funlambda, lisp/c/eval.c:346-448).

    The stack is a memory indexed by word addresses; 0 is NULL.  A frame is stored at its base address and has
    its C size in words.  Values are machine words: an integer n is 4n+2, a flonum has the low bits 01 (0.0 is
    the word 1), everything else is an address.  setjmp is modelled by the result [MJump p v]: control goes to
    the C function whose jmp_buf belongs to the frame at p; C functions in between are left.

    Simplifications: all variables are special and a let binds one variable; functions have no
    parameters; call frames, flet frames, lexical bindings, tagbody and the words pushed while arguments are
    evaluated are left out.  An error (error, eus.c:296-401) is an outcome of its own: the error handler and the
    break loop are not modelled.  setjmp_val is one global for all threads (eus.c:41); here there is one thread. *)
From Coq Require Export ZArith List Lia Bool Arith.
Export ListNotations.

Definition word := Z.
Definition int_word (n : Z) : word := (4 * n + 2)%Z.
Definition zero_flonum : word := 1%Z.
Definition NILw : word := 4096%Z.      (* the address of NIL; any address will do *)

Inductive exp :=
| Const (w : word)
| Emit (k : nat)                         (* any visible effect; its value is NIL *)
| Get (x : nat)
| SetQ (x : nat) (e : exp)
| Progn (a b : exp)
| If (c a b : exp)
| Let (x : nat) (e b : exp)              (* (let ((x e)) b), x special *)
| Catch (tag b : exp)
| Throw (tag e : exp)
| Block (n : nat) (b : exp)
| ReturnFrom (n : nat) (e : exp)
| Loop (c b : exp)                       (* the loop of while; see [While] *)
| Protect (e c : exp)                    (* (unwind-protect e c) *)
| Call (g : nat).

(** specials.c:365-388: while is its loop inside a block named NIL. *)
Definition NILsym := 0.
Definition While (c b : exp) : exp := Block NILsym (Loop c b).

Inductive frame :=
| FNone
| FSpecial (link sym : nat) (old : word)               (* 3 words *)
| FCatch (next : nat) (label : word)                   (* 6 words *)
| FBlock (dyn lex : nat) (name : option nat)           (* 5 words; the name of a closure is no symbol *)
| FProtect (link : nat) (cleaner : exp).               (* 2 words *)

Record ctx := mkCtx { vsp : nat; sb : nat; ca : nat; bl : nat; pr : nat;   (* sbindfp, catchfp, blkfp, protfp *)
                      mem : nat -> frame; spec : nat -> word; out : list nat }.

Definition upd {A} (f : nat -> A) (i : nat) (x : A) : nat -> A := fun j => if j =? i then x else f j.

Definition set_vsp (s : ctx) (v : nat) := mkCtx v (sb s) (ca s) (bl s) (pr s) (mem s) (spec s) (out s).
Definition set_ca (s : ctx) (v : nat) := mkCtx (vsp s) (sb s) v (bl s) (pr s) (mem s) (spec s) (out s).
Definition set_bl (s : ctx) (v : nat) := mkCtx (vsp s) (sb s) (ca s) v (pr s) (mem s) (spec s) (out s).
Definition set_pr (s : ctx) (v : nat) := mkCtx (vsp s) (sb s) (ca s) (bl s) v (mem s) (spec s) (out s).
Definition set_spec (s : ctx) (x : nat) (v : word) :=
  mkCtx (vsp s) (sb s) (ca s) (bl s) (pr s) (mem s) (upd (spec s) x v) (out s).
Definition emit (s : ctx) (k : nat) :=
  mkCtx (vsp s) (sb s) (ca s) (bl s) (pr s) (mem s) (spec s) (out s ++ [k]).

(** eval.c:133-148 [bindspecial] *)
Definition bindspecial (s : ctx) (x : nat) (v : word) : ctx :=
  mkCtx (vsp s + 3) (vsp s) (ca s) (bl s) (pr s)
        (upd (mem s) (vsp s) (FSpecial (sb s) x (spec s x))) (upd (spec s) x v) (out s).

(** eval.c:165-178 [unbindspecial]; [None] when the chain leads to something that is no special frame *)
Fixpoint unbind_loop (n : nat) (limit : nat) (s : ctx) : option ctx :=
  match n with
  | O => None
  | S n' =>
      if limit <=? sb s then
        match mem s (sb s) with
        | FSpecial link x old =>
            unbind_loop n' limit (mkCtx (vsp s) link (ca s) (bl s) (pr s) (mem s) (upd (spec s) x old) (out s))
        | _ => None
        end
      else Some s
  end.
Definition unbindspecial (s : ctx) (limit : nat) : option ctx :=
  if sb s =? 0 then Some s else unbind_loop (S (sb s)) limit s.

(** eus.c:289 *)
Fixpoint pop_blocks (n : nat) (p : nat) (s : ctx) : option ctx :=
  match n with
  | O => None
  | S n' => if p <? bl s then
              match mem s (bl s) with FBlock dyn _ _ => pop_blocks n' p (set_bl s dyn) | _ => None end
            else Some s
  end.
(** eus.c:291 *)
Fixpoint pop_catches (n : nat) (p : nat) (s : ctx) : option ctx :=
  match n with
  | O => None
  | S n' => if p <? ca s then
              match mem s (ca s) with FCatch next _ => pop_catches n' p (set_ca s next) | _ => None end
            else Some s
  end.

(** specials.c:536-542: the catch frame with an eq label *)
Inductive found := Found (p : nat) | NotFound | Bad.
Fixpoint find_catch (n : nat) (m : nat -> frame) (cfp : nat) (tag : word) : found :=
  match n with
  | O => Bad
  | S n' => if cfp =? 0 then NotFound
            else match m cfp with
                 | FCatch next label => if Z.eqb label tag then Found cfp else find_catch n' m next tag
                 | _ => Bad
                 end
  end.
(** specials.c:681-690: the block frame with the name *)
Fixpoint find_block (n : nat) (m : nat -> frame) (b : nat) (name : nat) : found :=
  match n with
  | O => Bad
  | S n' => if b =? 0 then NotFound
            else match m b with
                 | FBlock _ lex nm =>
                     if match nm with Some k => k =? name | None => false end then Found b
                     else find_block n' m lex name
                 | _ => Bad
                 end
  end.

(** makes.c:769-783 [makeblock] *)
Definition makeblock (s : ctx) (name : option nat) (lex : nat) : ctx :=
  mkCtx (vsp s + 5) (sb s) (ca s) (vsp s) (pr s) (upd (mem s) (vsp s) (FBlock (bl s) lex name)) (spec s) (out s).
(** makes.c:804-818 [mkcatchframe] *)
Definition mkcatchframe (s : ctx) (label : word) : ctx :=
  mkCtx (vsp s + 6) (sb s) (vsp s) (bl s) (pr s) (upd (mem s) (vsp s) (FCatch (ca s) label)) (spec s) (out s).
(** specials.c:726-727 *)
Definition mkprotect (s : ctx) (c : exp) : ctx :=
  mkCtx (vsp s + 2) (sb s) (ca s) (bl s) (vsp s) (upd (mem s) (vsp s) (FProtect (pr s) c)) (spec s) (out s).

(** the value setjmp returns: eus.h:76-77 with specials.c:522, 663 and eval.c:436 *)
Definition delivered (v : word) : word := if Z.eqb v zero_flonum then int_word 0 else v.

Inductive res := MVal (v : word) (s : ctx) | MJump (p : nat) (v : word) (s : ctx) | MErr (s : ctx) | MUndef | MFuel.

(** specials.c:664-667 and 385-387 (block, while) *)
Definition leave_block (b spsave : nat) (v : word) (s : ctx) : res :=
  match mem s b with FBlock dyn _ _ => MVal v (set_vsp (set_bl s dyn) spsave) | _ => MUndef end.

(** eval.c:433-448: the block around a function body; the frame of the function block is at [b].  The limit of
    unbindspecial is one frame above the value [sbfps] of sbindfp at the entry. *)
Definition leave_function (b sbfps spsave : nat) (v : word) (s : ctx) : res :=
  match mem s b with
  | FBlock dyn _ _ =>
      match unbindspecial (set_vsp (set_bl s dyn) spsave) (sbfps + 3) with Some s' => MVal v s' | None => MUndef end
  | _ => MUndef
  end.
Definition funlambda (ev : exp -> ctx -> res) (name : option nat) (body : exp) (s : ctx) : res :=
  match ev body (makeblock s name 0) with
  | MVal v s1 => leave_function (vsp s) (sb s) (vsp s) v s1
  | MJump p v s1 => if p =? vsp s then leave_function (vsp s) (sb s) (vsp s) (delivered v) s1 else MJump p v s1
  | r => r
  end.

Section Machine.
  Variable P : nat -> exp.        (* the bodies of the defined functions *)

  Fixpoint eval (f : nat) (e : exp) (s : ctx) {struct f} : res :=
    match f with
    | O => MFuel
    | S f =>
        match e with
        | Const w => MVal w s
        | Emit k => MVal NILw (emit s k)
        | Get x => MVal (spec s x) s
        | SetQ x e1 => match eval f e1 s with MVal v s1 => MVal v (set_spec s1 x v) | r => r end
        | Progn a b => match eval f a s with MVal _ s1 => eval f b s1 | r => r end
        | If c a b => match eval f c s with
                      | MVal v s1 => if Z.eqb v NILw then eval f b s1 else eval f a s1
                      | r => r
                      end
        | Let x e1 b =>                                 (* specials.c:408-460; vpush(init) takes one word *)
            match eval f e1 s with
            | MVal v s1 =>
                match eval f b (bindspecial (set_vsp s1 (vsp s1 + 1)) x v) with
                | MVal w s2 => match unbindspecial (set_vsp s2 (vsp s)) (vsp s) with
                               | Some s3 => MVal w s3
                               | None => MUndef
                               end
                | r => r
                end
            | r => r
            end
        | Catch tag b =>                                (* specials.c:507-531 *)
            match eval f tag s with
            | MVal t s1 =>
                let fin v s2 := match mem s2 (ca s2) with
                                | FCatch next _ => MVal v (set_ca (set_vsp s2 (ca s2)) next)
                                | _ => MUndef
                                end in
                match eval f b (mkcatchframe s1 t) with
                | MVal v s2 => fin v s2
                | MJump p v s2 => if p =? vsp s1 then fin (delivered v) s2 else MJump p v s2
                | r => r
                end
            | r => r
            end
        | Throw tag e1 =>                               (* specials.c:533-560 *)
            match eval f tag s with
            | MVal t s1 =>
                match eval f e1 s1 with
                | MVal v s2 =>
                    match find_catch (S (ca s2)) (mem s2) (ca s2) t with
                    | Found p => match unwind f (set_ca s2 p) p with
                                 | MVal _ s3 => MJump (ca s3) v s3
                                 | r => r
                                 end
                    | NotFound => MErr s2
                    | Bad => MUndef
                    end
                | r => r
                end
            | r => r
            end
        | Block n b =>                                  (* specials.c:647-668 *)
            match eval f b (makeblock s (Some n) (bl s)) with
            | MVal v s1 => leave_block (vsp s) (vsp s) v s1
            | MJump p v s1 => if p =? vsp s then leave_block (vsp s) (vsp s) (delivered v) s1 else MJump p v s1
            | r => r
            end
        | ReturnFrom n e1 =>                            (* specials.c:670-691 *)
            match find_block (S (bl s)) (mem s) (bl s) n with
            | Found q =>
                match eval f e1 s with
                | MVal v s1 =>
                    match unwind f (set_bl s1 q) q with
                    | MVal _ s2 => MJump (bl s2) (if Z.eqb v (int_word 0) then zero_flonum else v) s2
                    | r => r
                    end
                | r => r
                end
            | NotFound => MErr s
            | Bad => MUndef
            end
        | Loop c b =>                                   (* specials.c:382-383 *)
            match eval f c s with
            | MVal v s1 => if Z.eqb v NILw then MVal NILw s1
                           else match eval f b s1 with MVal _ s2 => eval f (Loop c b) s2 | r => r end
            | r => r
            end
        | Protect e1 c =>                               (* specials.c:705-735 *)
            match eval f e1 (mkprotect s c) with
            | MVal v s1 => match eval f c (set_pr (set_vsp s1 (vsp s)) (pr s)) with
                           | MVal _ s2 => MVal v s2
                           | r => r
                           end
            | r => r
            end
        | Call g => funlambda (eval f) (Some g) (P g) s
        end
    end
  (** eus.c:274-294 *)
  with unwind (f : nat) (s : ctx) (p : nat) {struct f} : res :=
    match f with
    | O => MFuel
    | S f =>
        if p <=? pr s then
          match mem s (pr s) with
          | FProtect link c => match funlambda (eval f) None c (set_pr s link) with
                               | MVal _ s1 => unwind f s1 p
                               | r => r
                               end
          | _ => MUndef
          end
        else
          match unbindspecial s p with
          | None => MUndef
          | Some s1 => match pop_blocks (S (bl s1)) p s1 with
                       | None => MUndef
                       | Some s2 => match pop_catches (S (ca s2)) p s2 with
                                    | None => MUndef
                                    | Some s3 => MVal NILw s3
                                    end
                       end
          end
    end.

  (** A form read at the top level: no frame yet; the stack begins at some address after NULL. *)
  Definition start (base : nat) (sp : nat -> word) : ctx := mkCtx base 0 0 0 0 (fun _ => FNone) sp [].
End Machine.
