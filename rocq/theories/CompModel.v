(** Model of the compiler: the methods of lisp/comp/comp.l for the forms of [CompLang], the methods of lisp/comp/trans.l that
    write the C text, and what the C text does.

    The C text is a list of statements.  The translator keeps one C expression back ([push]) and the number of stack
    cells in use ([count]); the cells are local[0], local[1], ....  The compiler is modelled for *optimize* = 2 and *safety* = 1
    (the defaults), outside closures (closure-level 0).  The types that :eval returns are left out: without declarations
    they only matter for literal numbers in arithmetic and comparisons, which are calls here. *)
From Verif Require Export CompLang.

(** ** The C text *)

Inductive cexpr : Type :=
| CW                                  (* w *)
| CLocal (n : nat)                    (* local[n] *)
| CArg (n : nat)                      (* argv[n] *)
| CConst (v : V)                      (* NIL, T, makeint(..), fqv[..] *)
| CGlobal (x : nat)                   (* loadglobal(fqv[..]) *)
| CNull (e : cexpr)                   (* ((e)==NIL?T:NIL) *)
| CEq (a b : cexpr)                   (* ((a)==(b)?T:NIL) *)
| CCar (e : cexpr)                    (* (e)->c.cons.car *)
| CCdr (e : cexpr)
| CIs (p : nat).                      (* (p(w)?T:NIL) *)

Inductive stmt : Type :=
| SLocal (n : nat) (e : cexpr)        (* local[n]=e *)
| SArg (n : nat) (e : cexpr)          (* argv[n]=e *)
| SW (e : cexpr)                      (* w=e *)
| SGlobal (x : nat) (e : cexpr)       (* storeglobal(fqv[..],e) *)
| SCheckList                          (* if (!iscons(w) && w!=NIL) error(E_NOLIST) *)
| SIfNil (e : cexpr) (l : nat)        (* if (e==NIL) goto l *)
| SIfT (e : cexpr) (l : nat)          (* if (e!=NIL) goto l *)
| SIfEq (a b : cexpr) (l : nat)
| SIfNeq (a b : cexpr) (l : nat)
| SIfIs (p : nat) (l : nat)           (* if (p(w)) goto l *)
| SIfNotIs (p : nat) (l : nat)
| SGoto (l : nat)
| SLabel (l : nat)
| SCall (f n base : nat)              (* ctx->vsp=local+base+n; w=f(ctx,n,local+base) *)
| SBind (x at_ : nat)                 (* ctx->vsp=local+at; bindspecial(ctx,x,w) *)
| SUnbind (n : nat)                   (* unbindx(ctx,n) *)
| SUnwind (k : nat)                   (* unwind(ctx,local+k) *)
| SCheckArgs (n : nat)                (* if (n!=req) maerror() *)
| SReturn.                            (* return(local[0]) *)

(** ** The translator and the compiler *)

(** comp.l:128-145: the binding and the offset of an identifier *)
Inductive ident : Type := Special | InLocal (off : nat) | InArg (off : nat).
Definition frame : Type := list (nat * ident).

(** trans.l:32-36 and comp.l:150-194, 203-216: the slots.  [ids] are the frames of the identifier table up to [level], innermost first; [lab] is
    *compiler-symid*; [frames] are the numbers of special bindings and of locals *)
Record cst := mkCst {
  push : option cexpr; count : nat; lab : nat;
  ids : list frame; scope : nat;
  blocks : list (nat * (nat * nat)); tags : list (nat * (nat * nat));
  unwinds : list nat; frames : list (nat * nat)
}.

(** A method: it may fail (:error), changes the slots and writes to the C file *)
Definition M (A : Type) : Type := cst -> option (A * cst * list stmt).
Definition ret {A} (a : A) : M A := fun c => Some (a, c, []).
Definition err {A} : M A := fun _ => None.
Definition bind {A B} (m : M A) (k : A -> M B) : M B := fun c =>
  match m c with
  | None => None
  | Some (a, c1, o1) => match k a c1 with None => None | Some (b, c2, o2) => Some (b, c2, o1 ++ o2) end
  end.
Notation "x <- m ;; k" := (bind m (fun x => k)) (at level 61, m at next level, right associativity).
Notation "m ;; k" := (bind m (fun _ => k)) (at level 61, right associativity).

Definition emit (s : stmt) : M unit := fun c => Some (tt, c, [s]).
Definition get : M cst := fun c => Some (c, c, []).
Definition set_push (p : option cexpr) : M unit := fun c =>
  Some (tt, mkCst p (count c) (lab c) (ids c) (scope c) (blocks c) (tags c) (unwinds c) (frames c), []).
Definition set_count (n : nat) : M unit := fun c =>
  Some (tt, mkCst (push c) n (lab c) (ids c) (scope c) (blocks c) (tags c) (unwinds c) (frames c), []).
Definition set_ids (i : list frame) : M unit := fun c =>
  Some (tt, mkCst (push c) (count c) (lab c) i (scope c) (blocks c) (tags c) (unwinds c) (frames c), []).
Definition set_scope (n : nat) : M unit := fun c =>
  Some (tt, mkCst (push c) (count c) (lab c) (ids c) n (blocks c) (tags c) (unwinds c) (frames c), []).
Definition set_blocks (b : list (nat * (nat * nat))) : M unit := fun c =>
  Some (tt, mkCst (push c) (count c) (lab c) (ids c) (scope c) b (tags c) (unwinds c) (frames c), []).
Definition set_tags (t : list (nat * (nat * nat))) : M unit := fun c =>
  Some (tt, mkCst (push c) (count c) (lab c) (ids c) (scope c) (blocks c) t (unwinds c) (frames c), []).
Definition set_unwinds (u : list nat) : M unit := fun c =>
  Some (tt, mkCst (push c) (count c) (lab c) (ids c) (scope c) (blocks c) (tags c) u (frames c), []).
Definition set_frames (f : list (nat * nat)) : M unit := fun c =>
  Some (tt, mkCst (push c) (count c) (lab c) (ids c) (scope c) (blocks c) (tags c) (unwinds c) f, []).

Section Iter.
Context {A : Type} (f : A -> M unit).
Fixpoint iter (l : list A) : M unit := match l with [] => ret tt | a :: r => f a ;; iter r end.
End Iter.

(** comp.l:221-222 *)
Definition genlabel : M nat := fun c =>
  Some (S (lab c), mkCst (push c) (count c) (S (lab c)) (ids c) (scope c) (blocks c) (tags c) (unwinds c) (frames c), []).

(** *** trans.l *)

(** trans.l:71-75 :clearpush *)
Definition clearpush : M unit :=
  c <- get ;;
  match push c with
  | Some e => emit (SLocal (count c) e) ;; set_count (S (count c)) ;; set_push None
  | None => ret tt
  end.
(** trans.l:68-70 :push *)
Definition push_ (e : cexpr) : M unit := clearpush ;; set_push (Some e).
(** trans.l:61-63 :pop; the count is never 0 here *)
Definition pop : M cexpr :=
  c <- get ;;
  match push c with
  | Some e => set_push None ;; ret e
  | None => match count c with O => err | S n => set_count n ;; ret (CLocal n) end
  end.
(** trans.l:64-67 :store; [dest] is w, a local or an argument *)
Definition same (a b : cexpr) : bool :=
  match a, b with
  | CW, CW => true
  | CLocal n, CLocal m => Nat.eqb n m
  | CArg n, CArg m => Nat.eqb n m
  | _, _ => false
  end.
Definition assignment (dest e : cexpr) : stmt :=
  match dest with CLocal n => SLocal n e | CArg n => SArg n e | _ => SW e end.
Definition store (dest : cexpr) : M unit :=
  c <- get ;;
  if match push c with Some e => same e dest | None => false end then set_push None
  else e <- pop ;; emit (assignment dest e).
(** trans.l:49-51 :label, 526-528 :jump *)
Definition label (l : nat) : M unit := clearpush ;; emit (SLabel l).
Definition jump (l : nat) : M unit := clearpush ;; emit (SGoto l).
(** trans.l:88-91 :dupe *)
Definition dupe : M unit :=
  c <- get ;;
  match push c with
  | Some CW => push_ CW
  | _ => clearpush ;; c <- get ;; push_ (CLocal (count c - 1))
  end.
(** trans.l:92-94 :discard *)
Definition discard (n : nat) : M unit :=
  c <- get ;;
  let n := match push c with Some _ => n - 1 | None => n end in
  set_push None ;; set_count (count c - n).
(** trans.l:95 :adjust, 97-99 :offset-from-fp *)
Definition adjust (n : nat) : M unit := c <- get ;; set_count (count c - n).
Definition offset_from_fp : M nat := clearpush ;; c <- get ;; ret (count c).
(** trans.l:101-108 :bind-special, 109-114 :unbind-special *)
Definition bind_special (x : nat) : M unit :=
  store CW ;; c <- get ;; emit (SBind x (count c)) ;; set_count (count c + 3).
Definition unbind_special (n : nat) : M unit := clearpush ;; emit (SUnbind n).
(** trans.l:169-215 :load-t to :store-global *)
Definition load_const (v : V) : M unit := push_ (CConst v).
Definition load_local (n : nat) : M unit := push_ (CLocal n).
Definition load_arg (n : nat) : M unit := push_ (CArg n).
Definition load_global (x : nat) : M unit := push_ (CGlobal x).
Definition store_global (x : nat) : M unit := e <- pop ;; emit (SGlobal x e).
(** trans.l:244-263 :call *)
Definition call_ (f n : nat) : M unit :=
  clearpush ;; c <- get ;; emit (SCall f n (count c - n)) ;; discard n ;; push_ CW.
(** trans.l:283-288 :check-cons-nil, 289-302 :car, :cdr with *optimize* 2 and *safety* 1 *)
Definition check_cons_nil : M unit :=
  c <- get ;;
  (match push c with Some CW => set_push None | _ => e <- pop ;; emit (SW e) end) ;;
  emit SCheckList ;; push_ CW.
Definition car_ : M unit := check_cons_nil ;; e <- pop ;; push_ (CCar e).
Definition cdr_ : M unit := check_cons_nil ;; e <- pop ;; push_ (CCdr e).
(** trans.l:428-443 :nullx, :eqx, :type-check-predicate *)
Definition nullx : M unit := e <- pop ;; push_ (CNull e).
Definition eqx : M unit := a <- pop ;; b <- pop ;; push_ (CEq a b).
Definition type_check_predicate (p : nat) : M unit := store CW ;; push_ (CIs p).
(** trans.l:444-453 :if-nil to :if-neq, 512-524 :if-type, :if-not-type *)
Definition if_nil (l : nat) : M unit := e <- pop ;; emit (SIfNil e l).
Definition if_t (l : nat) : M unit := e <- pop ;; emit (SIfT e l).
Definition if_eq (l : nat) : M unit := a <- pop ;; b <- pop ;; emit (SIfEq a b l).
Definition if_neq (l : nat) : M unit := a <- pop ;; b <- pop ;; emit (SIfNeq a b l).
Definition if_type (p l : nat) : M unit := store CW ;; emit (SIfIs p l).
Definition if_not_type (p l : nat) : M unit := store CW ;; emit (SIfNotIs p l).
(** trans.l:529-532 :return, 533-536 :del-frame *)
Definition return_ : M unit := clearpush ;; emit SReturn ;; c <- get ;; set_count (count c - 1).
Definition del_frame (spe loc : nat) : M unit := store CW ;; discard (3 * spe + loc) ;; push_ CW.
(** trans.l:575-581 :return-from, 582-586 :go-tag *)
Definition unwind_if (need : bool) (k : nat) : M unit := if need then emit (SUnwind k) else ret tt.
Definition return_from (k : nat) (need : bool) : M unit :=
  store CW ;; unwind_if need k ;; emit (SLocal k CW) ;; c <- get ;; set_count (S (count c)).
Definition go_tag (k : nat) (need : bool) : M unit :=
  unwind_if need k ;; c <- get ;; set_count (S (count c)).

(** *** comp.l: variables *)

Fixpoint assq {A} (x : nat) (l : list (nat * A)) : option A :=
  match l with [] => None | (y, a) :: r => if Nat.eqb y x then Some a else assq x r end.
Fixpoint replace_id (x : nat) (i : ident) (f : frame) : frame :=
  match f with [] => [] | (y, j) :: r => if Nat.eqb y x then (y, i) :: r else (y, j) :: replace_id x i r end.

(** comp.l:158-162 :get, 163-165 :enter *)
Fixpoint search (x : nat) (fs : list frame) : option ident :=
  match fs with
  | [] => None
  | f :: r => match assq x f with Some i => Some i | None => search x r end
  end.
Definition get_id (c : cst) (x : nat) : option ident := search x (skipn (length (ids c) - 1 - scope c) (ids c)).
Definition top_frame (c : cst) : frame := match ids c with f :: _ => f | [] => [] end.
Definition enter (x : nat) (i : ident) : M unit :=
  c <- get ;; match ids c with f :: r => set_ids (((x, i) :: f) :: r) | [] => err end.

(** comp.l:185-194: a stack frame counts its special bindings and its locals *)
Definition add_special : M unit :=
  c <- get ;; match frames c with (s, l) :: r => set_frames ((S s, l) :: r) | [] => err end.
Definition add_local : M unit :=
  c <- get ;; match frames c with (s, l) :: r => set_frames ((s, S l) :: r) | [] => err end.

Section Comp.
Variable proclaimed : nat -> bool.

(** comp.l:278-291 :variable.  An identifier that is not in the table is special; one that is not proclaimed is entered
    in the current frame.  (A proclaimed one is entered in frame 0, to the same effect as looking at its proclamation again.) *)
Definition variable (x : nat) : M ident :=
  c <- get ;;
  match get_id c x with
  | Some i => ret i
  | None => if proclaimed x then ret Special else enter x Special ;; ret Special
  end.
(** comp.l:296-300 :special-variable-p *)
Definition special_variable_p (x : nat) : M bool :=
  c <- get ;;
  ret (match assq x (top_frame c) with
       | None => proclaimed x
       | Some Special => true
       | Some _ => false
       end).
(** comp.l:301-331 :enter-variable, :bind.  [load] is :load-arg for an argument. *)
Definition set_binding (x : nat) (i : ident) : M unit :=
  c <- get ;;
  match ids c with
  | f :: r => match assq x f with
              | Some _ => set_ids (replace_id x i f :: r)
              | None => set_ids (((x, i) :: f) :: r)
              end
  | [] => err
  end.
Definition bind_var (x : nat) (argument : bool) (offset : nat) : M unit :=
  b <- special_variable_p x ;;
  if b then
    set_binding x Special ;; add_special ;;
    (if argument then load_arg offset else ret tt) ;;
    c <- get ;; set_unwinds (offset :: unwinds c) ;; bind_special x
  else
    (if argument then ret tt else add_local) ;;
    set_binding x (if argument then InArg offset else InLocal offset).
(** comp.l:332-345 :create-frame, :delete-frame *)
Definition create_frame : M unit :=
  c <- get ;; set_frames ((0, 0) :: frames c) ;; set_ids ([] :: ids c) ;; set_scope (length (ids c)).
Definition delete_frame : M unit :=
  c <- get ;;
  match frames c, ids c with
  | (s, l) :: fs, _ :: is =>
      set_frames fs ;;
      (if Nat.ltb 0 s then unbind_special s else ret tt) ;;
      del_frame s l ;; set_ids is ;; set_scope (length is - 1)
  | _, _ => err
  end.
(** comp.l:359-375 :load-var, 387-398 :store-var, for symbols *)
Definition load_var (x : nat) : M unit :=
  i <- variable x ;;
  match i with Special => load_global x | InLocal n => load_local n | InArg n => load_arg n end.
Definition store_var (x : nat) : M unit :=
  i <- variable x ;;
  match i with Special => store_global x | InLocal n => store (CLocal n) | InArg n => store (CArg n) end.

(** comp.l:836-842 :enter-block, :leave-block *)
Definition enter_block (name : nat) : M nat :=
  sp <- offset_from_fp ;; l <- genlabel ;; c <- get ;; set_blocks ((name, (l, sp)) :: blocks c) ;; ret l.
Definition leave_block : M unit := c <- get ;; set_blocks (tl (blocks c)).
(** comp.l:855 and 877 *)
Definition need_unwind (c : cst) (offset : nat) : bool :=
  match unwinds c with u :: _ => Nat.leb offset u | [] => false end.

(** *** comp.l: forms *)

(** comp.l:608-611 :conditional-jump *)
Definition conditional_jump (tl nl : option nat) : M unit :=
  match nl, tl with
  | Some l, _ => if_nil l
  | None, Some l => if_t l
  | None, None => err
  end.

Section Forms.
Variable ev : exp -> M unit.

(** comp.l:612-671 :evcon; one of the labels is NIL *)
Fixpoint evcon (c : exp) (tl nl : option nat) {struct c} : M unit :=
  match c with
  | Eq a b => ev a ;; ev b ;; match nl, tl with Some l, _ => if_neq l | None, Some l => if_eq l | None, None => err end
  | Null a => evcon a nl tl
  | And ((_ :: _) as args) =>
      l <- (match nl with Some l => ret l | None => genlabel end) ;;
      (fix all (args : list exp) : M unit :=
         match args with [] => ret tt | a :: r => evcon a None (Some l) ;; all r end) args ;;
      match nl, tl with
      | Some _, _ => ret tt
      | None, Some t => jump t ;; label l
      | None, None => err
      end
  | Or ((_ :: _) as args) =>
      l <- (match tl with Some l => ret l | None => genlabel end) ;;
      (fix all (args : list exp) : M unit :=
         match args with [] => ret tt | a :: r => evcon a (Some l) None ;; all r end) args ;;
      match tl, nl with
      | Some _, _ => ret tt
      | None, Some n => jump n ;; label l
      | None, None => err
      end
  | Is p a => ev a ;; match nl, tl with Some l, _ => if_not_type p l | None, Some l => if_type p l | None, None => err end
  | _ => ev c ;; conditional_jump tl nl
  end.

(** comp.l:227-232 :progn *)
Fixpoint progn (l : list exp) : M unit :=
  match l with
  | [] => load_const NIL
  | [a] => ev a
  | a :: r => ev a ;; discard 1 ;; progn r
  end.

(** comp.l:686-709 :setq *)
Fixpoint setq (l : list (nat * exp)) : M unit :=
  match l with
  | [] => load_const NIL
  | (x, a) :: r =>
      ev a ;;
      match r with
      | [] => i <- variable x ;;
              match i with
              | Special => dupe ;; store_var x
              | _ => store_var x ;; load_var x
              end
      | _ => store_var x ;; setq r
      end
  end.

(** comp.l:748-769 :cond, from a clause on *)
Definition is_t (e : exp) : bool := match e with Const T => true | _ => false end.
Fixpoint cond (l : list (exp * list exp)) (exit : nat) : M unit :=
  match l with
  | [] => ret tt
  | (p, body) :: r =>
      next <- genlabel ;;
      match body with
      | [] => ev p ;; dupe ;; if_t exit ;; discard 1
      | _ => (if is_t p then ret tt else evcon p None (Some next)) ;; progn body ;; jump exit ;; adjust 1
      end ;;
      label next ;; cond r exit
  end.

(** comp.l:785-803 :and, :or.  The value of (and) is NIL. *)
Fixpoint and_ (l : list exp) (exit : nat) : M unit :=
  match l with
  | [] => load_const NIL
  | [a] => ev a
  | a :: r => ev a ;; dupe ;; if_nil exit ;; discard 1 ;; and_ r exit
  end.
Fixpoint or_ (l : list exp) (exit : nat) : M unit :=
  match l with
  | [] => load_const NIL
  | [a] => ev a
  | a :: r => ev a ;; dupe ;; if_t exit ;; discard 1 ;; or_ r exit
  end.

(** comp.l:710-722 :let*, 723-747 :let; without declarations *)
Fixpoint letstar_bind (b : list (nat * exp)) : M unit :=
  match b with
  | [] => ret tt
  | (x, a) :: r => ev a ;; o <- offset_from_fp ;; bind_var x false (o - 1) ;; letstar_bind r
  end.
Fixpoint let_inits (b : list (nat * exp)) (specials : list (nat * nat)) : M (list (nat * nat)) :=
  match b with
  | [] => ret specials
  | (x, a) :: r =>
      c <- get ;; set_scope (length (ids c) - 1 - 1) ;;
      ev a ;;
      o <- offset_from_fp ;;
      s <- special_variable_p x ;;
      if s then add_local ;; let_inits r ((x, o - 1) :: specials)
      else bind_var x false (o - 1) ;; let_inits r specials
  end.
Fixpoint let_specials (l : list (nat * nat)) : M unit :=
  match l with
  | [] => ret tt
  | (x, o) :: r => offset <- offset_from_fp ;; load_local o ;; bind_var x false offset ;; let_specials r
  end.

(** comp.l:866-870: the second loop of :tagbody *)
Fixpoint items (l : list (nat + exp)) : M unit :=
  match l with
  | [] => ret tt
  | inl t :: r => c <- get ;; match assq t (tags c) with Some (lb, _) => label lb | None => err end ;; items r
  | inr a :: r => ev a ;; discard 1 ;; items r
  end.
End Forms.

(** comp.l:861-865: the labels of a tagbody *)
Fixpoint enter_tags (l : list (nat + exp)) (fp : nat) : M unit :=
  match l with
  | [] => ret tt
  | inl t :: r => lb <- genlabel ;; c <- get ;; set_tags ((t, (lb, fp)) :: tags c) ;; enter_tags r fp
  | inr _ :: r => enter_tags r fp
  end.

(** comp.l:233-259 :eval, 401-468 :funcall, 573-603 :special-form and the methods of the forms *)
Fixpoint comp (e : exp) : M unit :=
  match e with
  | Const v => load_const v
  | Var x => load_var x
  | Setq l => setq comp l
  | Progn l => progn comp l
  | If c a b =>                                   (* comp.l:676-685 *)
      elselab <- genlabel ;; exitlab <- genlabel ;;
      evcon comp c None (Some elselab) ;;
      comp a ;; jump exitlab ;; adjust 1 ;; label elselab ;; comp b ;; label exitlab
  | Cond l => exit <- genlabel ;; cond comp l exit ;; load_const NIL ;; label exit
  | And l => exit <- genlabel ;; and_ comp l exit ;; label exit
  | Or l => exit <- genlabel ;; or_ comp l exit ;; label exit
  | While c l =>                                  (* comp.l:770-784 *)
      whilent <- genlabel ;; whilexit <- genlabel ;; whileblock <- enter_block 0 ;;
      label whilent ;; evcon comp c None (Some whilexit) ;; progn comp l ;; discard 1 ;; jump whilent ;;
      label whilexit ;; load_const NIL ;; label whileblock ;; leave_block
  | LetStar b l =>
      c <- get ;; create_frame ;; letstar_bind comp b ;; progn comp l ;;
      set_unwinds (unwinds c) ;; delete_frame
  | Let b l =>
      c <- get ;; create_frame ;; sp <- let_inits comp b [] ;; let_specials sp ;;
      c1 <- get ;; set_scope (length (ids c1) - 1) ;; progn comp l ;;
      set_unwinds (unwinds c) ;; delete_frame
  | Block name l => lb <- enter_block name ;; progn comp l ;; label lb ;; leave_block
  | ReturnFrom name a =>                          (* comp.l:848-857 *)
      comp a ;; c <- get ;;
      match assq name (blocks c) with
      | Some (lb, off) => return_from off (need_unwind c off) ;; jump lb
      | None => err
      end
  | Tagbody l =>                                  (* comp.l:858-872 *)
      c <- get ;; fp <- offset_from_fp ;; enter_tags l fp ;; items comp l ;; load_const NIL ;; set_tags (tags c)
  | Go t =>                                       (* comp.l:873-879 *)
      c <- get ;;
      match assq t (tags c) with
      | Some (lb, off) => go_tag off (need_unwind c off) ;; jump lb
      | None => err
      end
  | Call f l => iter comp l ;; call_ f (length l)
  | Null a => comp a ;; nullx
  | Eq a b => comp a ;; comp b ;; eqx
  | Car a => comp a ;; car_
  | Cdr a => comp a ;; cdr_
  | Is p a => comp a ;; type_check_predicate p
  end.

(** comp.l:945-1085 :lambda for required parameters, 1086-1100 :lambda-block *)
Fixpoint bind_params (l : list nat) (i : nat) : M unit :=
  match l with [] => ret tt | x :: r => bind_var x true i ;; bind_params r (S i) end.
Definition lambda_block (name : nat) (params : list nat) (body : list exp) : M unit :=
  blk <- enter_block name ;;
  set_count 0 ;;
  c <- get ;; create_frame ;;
  emit (SCheckArgs (length params)) ;;
  bind_params params 0 ;;
  progn comp body ;;
  set_unwinds (unwinds c) ;; delete_frame ;;
  label blk ;; return_ ;; leave_block.

(** The compiler between two functions *)
Definition initial : cst := mkCst None 0 0 [[]] 0 [] [] [] [].
Definition compile (name : nat) (params : list nat) (body : list exp) : option (list stmt) :=
  match lambda_block name params body initial with Some (_, _, code) => Some code | None => None end.
End Comp.

(** ** What the C text does *)

(** A cell of the stack: a value, a word of a special binding frame (eus.h struct specialbindframe: sblink, sym, oldval), or
    something left by another function.  A link out of this function's part of the stack is [None]. *)
Inductive cell : Type := Cell (v : V) | Link (p : option nat) | Sym (x : nat) | Junk.

Section Machine.
Variable L : lisp.

Record mst := mkM { loc : nat -> cell; arg : nat -> V; argn : nat; w : V; bfp : option nat; mgl : glob; mwd : W L }.

Definition set_loc (m : mst) (n : nat) (c : cell) : mst :=
  mkM (fun i => if Nat.eqb i n then c else loc m i) (arg m) (argn m) (w m) (bfp m) (mgl m) (mwd m).
Definition set_arg (m : mst) (n : nat) (v : V) : mst :=
  mkM (loc m) (fun i => if Nat.eqb i n then v else arg m i) (argn m) (w m) (bfp m) (mgl m) (mwd m).
Definition set_w (m : mst) (v : V) : mst := mkM (loc m) (arg m) (argn m) v (bfp m) (mgl m) (mwd m).
Definition set_gl (m : mst) (g : glob) : mst := mkM (loc m) (arg m) (argn m) (w m) (bfp m) g (mwd m).
Definition set_bfp (m : mst) (p : option nat) : mst := mkM (loc m) (arg m) (argn m) (w m) p (mgl m) (mwd m).

(** [None]: not a value *)
Fixpoint value (e : cexpr) (m : mst) : option V :=
  match e with
  | CW => Some (w m)
  | CLocal n => match loc m n with Cell v => Some v | _ => None end
  | CArg n => Some (arg m n)
  | CConst v => Some v
  | CGlobal x => Some (mgl m x)
  | CNull a => match value a m with Some v => Some (truth (V_eqb v NIL)) | None => None end
  | CEq a b => match value a m, value b m with Some u, Some v => Some (truth (V_eqb u v)) | _, _ => None end
  | CCar a => match value a m with Some v => Some (car L v (mwd m)) | None => None end
  | CCdr a => match value a m with Some v => Some (cdr L v (mwd m)) | None => None end
  | CIs p => Some (truth (is L p (w m)))
  end.

Fixpoint values (f : nat -> cell) (base n : nat) : option (list V) :=
  match n with
  | O => Some []
  | S n => match f base, values f (S base) n with Cell v, Some l => Some (v :: l) | _, _ => None end
  end.

(** eval.c:131-147 bindspecial *)
Definition bindspecial (m : mst) (x at_ : nat) : mst :=
  let m := set_loc (set_loc (set_loc m at_ (Link (bfp m))) (at_ + 1) (Sym x)) (at_ + 2) (Cell (mgl m x)) in
  set_bfp (set_gl m (upd (mgl m) x (w m))) (Some at_).
(** one round of the loops of eval.c:150-178 *)
Definition unbind1 (m : mst) : option mst :=
  match bfp m with
  | None => None
  | Some a => match loc m a, loc m (a + 1), loc m (a + 2) with
              | Link p, Sym x, Cell v => Some (set_bfp (set_gl m (upd (mgl m) x v)) p)
              | _, _, _ => None
              end
  end.
(** eval.c:150-163 unbindx *)
Fixpoint unbindx (n : nat) (m : mst) : option mst :=
  match n with O => Some m | S n => match unbind1 m with Some m => unbindx n m | None => None end end.
(** eval.c:165-178 unbindspecial, called by unwind (eus.c:274-296; there are no other frames here).  A link goes down. *)
Fixpoint unwind_loop (fuel : nat) (k : nat) (m : mst) : option mst :=
  match bfp m with
  | None => Some m
  | Some a => if Nat.leb k a then
                match fuel with
                | O => None
                | S f => match unbind1 m with Some m => unwind_loop f k m | None => None end
                end
              else Some m
  end.
Definition unwind (k : nat) (m : mst) : option mst :=
  unwind_loop (match bfp m with Some a => S a | None => 0 end) k m.

Inductive config : Type :=
| Running (code : list stmt) (m : mst)
| Returned (v : V) (m : mst)
| Failed                              (* error() *)
| Stuck.                              (* no behaviour: a stray word is used as a value, a label is missing *)

Fixpoint find_label (l : nat) (code : list stmt) : option (list stmt) :=
  match code with
  | [] => None
  | SLabel k :: r => if Nat.eqb k l then Some r else find_label l r
  | _ :: r => find_label l r
  end.
Definition goto (prog : list stmt) (l : nat) (m : mst) : config :=
  match find_label l prog with Some c => Running c m | None => Stuck end.

(** A function that is called may do what it likes with its arguments and with the stack above them. *)
Definition clobber (m : mst) (base : nat) : mst :=
  mkM (fun i => if Nat.ltb i base then loc m i else Junk) (arg m) (argn m) (w m) (bfp m) (mgl m) (mwd m).

Definition on (e : cexpr) (m : mst) (k : V -> config) : config :=
  match value e m with Some v => k v | None => Stuck end.
Definition continue (code : list stmt) (o : option mst) : config :=
  match o with Some m => Running code m | None => Stuck end.

Definition step (prog : list stmt) (code : list stmt) (m : mst) : config :=
  match code with
  | [] => Stuck
  | s :: k =>
      match s with
      | SLocal n e => on e m (fun v => Running k (set_loc m n (Cell v)))
      | SArg n e => on e m (fun v => Running k (set_arg m n v))
      | SW e => on e m (fun v => Running k (set_w m v))
      | SGlobal x e => on e m (fun v => Running k (set_gl m (upd (mgl m) x v)))
      | SCheckList => if islist L (w m) (mwd m) then Running k m else Failed
      | SIfNil e l => on e m (fun v => if V_eqb v NIL then goto prog l m else Running k m)
      | SIfT e l => on e m (fun v => if V_eqb v NIL then Running k m else goto prog l m)
      | SIfEq a b l => on a m (fun u => on b m (fun v => if V_eqb u v then goto prog l m else Running k m))
      | SIfNeq a b l => on a m (fun u => on b m (fun v => if V_eqb u v then Running k m else goto prog l m))
      | SIfIs p l => if is L p (w m) then goto prog l m else Running k m
      | SIfNotIs p l => if is L p (w m) then Running k m else goto prog l m
      | SGoto l => goto prog l m
      | SLabel _ => Running k m
      | SCall f n base =>
          match values (loc m) base n with
          | None => Stuck
          | Some vs => match call L f vs (mgl m) (mwd m) with
                       | None => Failed
                       | Some (v, g, u) =>
                           let m := clobber m base in
                           Running k (mkM (loc m) (arg m) (argn m) v (bfp m) g u)
                       end
          end
      | SBind x at_ => Running k (bindspecial m x at_)
      | SUnbind n => continue k (unbindx n m)
      | SUnwind n => continue k (unwind n m)
      | SCheckArgs n => if Nat.eqb (argn m) n then Running k m else Failed
      | SReturn => match loc m 0 with Cell v => Returned v m | _ => Stuck end
      end
  end.

Fixpoint steps (prog : list stmt) (n : nat) (c : config) : config :=
  match n with
  | O => c
  | S n => match c with Running code m => steps prog n (step prog code m) | _ => c end
  end.

(** A call of the compiled function *)
Definition start (args : list V) (g : glob) (u : W L) : mst :=
  mkM (fun _ => Junk) (fun i => nth i args NIL) (length args) NIL None g u.
End Machine.
