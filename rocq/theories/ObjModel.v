(** Classes, slots and messages: make-class (/repo/lisp/l/common.l lines 729-806), addmethod, findmethod, findforward, SEND, SEND_IF_FOUND, SENDMESSAGE
    and getslotindex of /repo/lisp/c/leo.c (lines 90-130, 203-397, 473-518), getobjv and getval of /repo/lisp/c/eval.c (lines 22-67), makeobject of
    /repo/lisp/c/makes.c (lines 407-415), and where compiled methods find a slot (/repo/lisp/comp/comp.l lines 1125-1138).

    Simplifications: names, selectors and methods are numbers; a class is its place in the list of classes, class 0 being [object]; types, element types and
    documentation are left out; the method cache is left out (C30); the class index that tells subclasses is the ancestor relation (C29);
    symbols, NIL among them, understand what [object] does, and other built-in classes are left out. *)
From Coq Require Import ZArith List Bool Arith.
Import ListNotations.
Open Scope nat_scope.

(** :forward of a slot: t, or a list of selectors *)
Inductive fwd := FAll | FSome (l : list nat).
Record cls := Cls { super : option nat; vars : list nat; forwards : list fwd; methods : list (nat * nat) }.
Definition table := list cls.
Definition first_table : table := [Cls None [] [] []].
Inductive val := Num (z : Z) | Ref (o : nat) | Sym (s : nat).
Record object := Obj { klass : nat; iv : list val }.
Definition heap := list object.

Definition memb (x : nat) (l : list nat) : bool := existsb (Nat.eqb x) l.
(** common.l 756-771: the new slots are pushed onto the variables of the superclass, [None] being the error of a duplicated name *)
Fixpoint push_slots (slots : list (nat * fwd)) (variables : list nat) (fs : list fwd) : option (list nat * list fwd) :=
  match slots with
  | [] => Some (variables, fs)
  | (v, f) :: r => if memb v variables then None else push_slots r (v :: variables) (f :: fs)
  end.
Definition replace (t : table) (i : nat) (c : cls) : table := firstn i t ++ c :: skipn (S i) t.
(** make-class: [c] is the class of that name, if there is one, whose methods are kept *)
Definition make_class (t : table) (c : option nat) (sup : nat) (slots : list (nat * fwd)) : option table :=
  match nth_error t sup with
  | None => None
  | Some s =>
      match push_slots slots (rev (vars s)) (rev (forwards s)) with
      | None => None
      | Some (vs, fs) =>
          match c with
          | None => Some (t ++ [Cls (Some sup) (rev vs) (rev fs) []])
          | Some c => match nth_error t c with
                      | None => None
                      | Some k => Some (replace t c (Cls (Some sup) (rev vs) (rev fs) (methods k)))
                      end
          end
      end
  end.
(** addmethod: leo.c 114-122 *)
Fixpoint set_method (l : list (nat * nat)) (sel m : nat) : list (nat * nat) :=
  match l with
  | [] => [(sel, m)]
  | (s, n) :: r => if s =? sel then (sel, m) :: r else (s, n) :: set_method r sel m
  end.
Definition addmethod (t : table) (c sel m : nat) : option table :=
  match nth_error t c with
  | None => None
  | Some k => Some (replace t c (Cls (super k) (vars k) (forwards k) (set_method (methods k) sel m)))
  end.
Inductive op := NewClass (sup : nat) (slots : list (nat * fwd)) | Redefine (c sup : nat) (slots : list (nat * fwd)) | AddMethod (c sel m : nat).
Definition step (t : table) (o : op) : option table :=
  match o with
  | NewClass sup slots => make_class t None sup slots
  | Redefine c sup slots => make_class t (Some c) sup slots
  | AddMethod c sel m => addmethod t c sel m
  end.
Fixpoint run (ops : list op) (t : table) : option table :=
  match ops with [] => Some t | o :: r => match step t o with Some t => run r t | None => None end end.

(** findmethod: leo.c 203-232; [None] is that the search does not end, [Some None] is NIL *)
Fixpoint assq (sel : nat) (l : list (nat * nat)) : option nat :=
  match l with [] => None | (s, m) :: r => if s =? sel then Some m else assq sel r end.
Fixpoint find_loop (fuel : nat) (t : table) (sel c : nat) : option (option (nat * nat)) :=
  match fuel with
  | O => None
  | S n =>
      match nth_error t c with
      | None => Some None
      | Some k =>
          match assq sel (methods k) with
          | Some m => Some (Some (c, m))
          | None => match super k with Some s => find_loop n t sel s | None => Some None end
          end
      end
  end.
Definition findmethod (t : table) (sel c : nat) : option (option (nat * nat)) := find_loop (S (length t)) t sel c.

(** [Run receiver class method arguments]: the method is called; its variables [self] and [class] are the first two *)
Inductive outcome := Run (receiver : val) (cl m : nat) (args : list val) | NoMethod | NoObject | NoClass | Forever | Crash.
Definition classof (h : heap) (v : val) : option nat :=
  match v with Ref o => match nth_error h o with Some x => Some (klass x) | None => None end | Sym _ => Some 0 | Num _ => None end.
(** findforward: leo.c 234-249.  [k] is called with the component, the class found and the method. *)
Inductive forwarded := FFound (component : val) (cl m : nat) | FNone | FNumber | FForever.
Definition accepts (sel : nat) (f : fwd) : bool := match f with FAll => true | FSome l => memb sel l end.
Fixpoint findforward (t : table) (h : heap) (sel : nat) (fs : list fwd) (slots : list val) : forwarded :=
  match fs, slots with
  | f :: fs, v :: slots =>
      if accepts sel f then
        match classof h v with
        | None => FNumber
        | Some c =>
            match findmethod t sel c with
            | None => FForever
            | Some (Some (d, m)) => FFound v d m
            | Some None => findforward t h sel fs slots
            end
        end
      else findforward t h sel fs slots
  | _, _ => FNone
  end.
(** the keyword :nomethod *)
Definition K_NOMETHOD : nat := 0.
Definition slots_of (h : heap) (v : val) : list val := match v with Ref o => match nth_error h o with Some x => iv x | None => [] end | _ => [] end.
Definition forwards_of (t : table) (c : nat) : list fwd := match nth_error t c with Some k => forwards k | None => [] end.
(** SEND: leo.c 251-309 *)
Definition SEND (t : table) (h : heap) (receiver : val) (sel : nat) (args : list val) : outcome :=
  match classof h receiver with
  | None => NoObject
  | Some c =>
      match findmethod t sel c with
      | None => Forever
      | Some (Some (d, m)) => Run receiver d m args
      | Some None =>
          match findforward t h sel (forwards_of t c) (slots_of h receiver) with
          | FForever => Forever
          | FNumber => NoObject
          | FFound comp d m => Run comp d m args
          | FNone =>
              match findmethod t K_NOMETHOD c with
              | None => Forever
              | Some (Some (d, m)) => Run receiver d m (Sym sel :: args)
              | Some None => NoMethod
              end
          end
      end
  end.
(** SEND_IF_FOUND: lines 311-356.  findforward gets NULL for the class found, and findmethod stores through it.  [inr] is the value returned without a call. *)
Definition SEND_IF_FOUND (t : table) (h : heap) (default receiver : val) (sel : nat) (args : list val) : outcome + val :=
  match classof h receiver with
  | None => inr default
  | Some c =>
      match findmethod t sel c with
      | None => inl Forever
      | Some (Some (d, m)) => inl (Run receiver d m args)
      | Some None =>
          match findforward t h sel (forwards_of t c) (slots_of h receiver) with
          | FForever => inl Forever
          | FNumber => inl NoObject
          | FFound comp d m => inl Crash
          | FNone => inr default
          end
      end
  end.
(** SENDMESSAGE: lines 363-397, and (send-super ...) in a method of class [d]: common.l 689-691; (class . super) of [object] is nil *)
Definition SENDMESSAGE (t : table) (receiver : val) (search sel : nat) (args : list val) : outcome :=
  match findmethod t sel search with
  | None => Forever
  | Some (Some (d, m)) => Run receiver d m args
  | Some None => NoMethod
  end.
Definition send_super (t : table) (receiver : val) (d sel : nat) (args : list val) : outcome :=
  match nth_error t d with
  | Some k => match super k with Some s => SENDMESSAGE t receiver s sel args | None => NoClass end
  | None => NoClass
  end.

(** getobjv: eval.c 22-32: the place of a name *)
Fixpoint position (v : nat) (l : list nat) (i : nat) : option nat :=
  match l with [] => None | x :: r => if x =? v then Some i else position v r (S i) end.
Definition vars_of (t : table) (c : nat) : list nat := match nth_error t c with Some k => vars k | None => [] end.
(** (obj . v), and a variable of an interpreted method: by name in the class of the object (ovafptr, and getval with the frame made at leo.c 299) *)
Definition place_interpreted (t : table) (h : heap) (o : val) (v : nat) : option nat :=
  match classof h o with Some c => position v (vars_of t c) 0 | None => None end.
(** a variable of a compiled method of class [d]: the place it had in [d] when the method was compiled *)
Definition place_compiled (t : table) (d v : nat) : option nat := position v (vars_of t d) 0.
(** (slot obj d v): getslotindex, leo.c 473-498, for an object of a subclass of [d]; the accessor d-v has the place in [d] as a constant (common.l 798-804) *)
Definition getslotindex (t : table) (d v : nat) : option nat := position v (vars_of t d) 0.
(** instantiate: makes.c 407-415 *)
Definition makeobject (t : table) (c : nat) : object := Obj c (repeat (Sym 0) (length (vars_of t c))).
