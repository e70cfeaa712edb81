(* The interpreter's variables, blocks and local functions: a model of
   /repo/lisp/c/eval.c (getval 33, setval 68, getfunc 97, bindspecial 131,
   unbindspecial 165, fastbind 180, vbind 194, declare 220, funlambda 346,
   ufuncall 1488, eval 1641), /repo/lisp/c/specials.c (SETQ 305, IF 329,
   WHILE 365, PARLET 408, SEQLET 463, FLET 562, LABELS 580, BLOCK 647,
   RETFROM 670), /repo/lisp/c/eus.c unwind 274 and /repo/lisp/c/makes.c
   makeblock 769, makeflet 785.

   The Lisp stack is a memory of frames: an address is a number, a frame or a
   pushed value takes one address where in C it takes several words, and the
   order of addresses is kept.  The memory above the stack pointer keeps its
   old contents, as in C.  A null pointer is None.  A long jump is an outcome
   that passes through the C functions between and is stopped by the one whose
   frame it names.

   Not modelled: optional, rest, keyword and aux parameters, macros, closures
   as values, catch and throw, unwind-protect, tagbody, methods (object
   variables in a frame), the evaluation hook, constants, other threads (so a
   special variable has one value, where the code looks first in the thread's
   table and then in the symbol), stack overflow. *)

From Coq Require Import List Bool Arith Lia.
From Verif Require Import ScopeLang.
Import ListNotations.

Section Interp.

Variables (V W : Type).
Variable nilv : V.
Variable isnil : V -> bool.
Variable kinds : nat -> kind.
Variable defs : nat -> option (fdef V).
Variable prim : nat -> list V -> dynamic V -> W -> option (V * dynamic V * W).

Notation exp := (exp V).
Notation ptr := (option nat).

(* eus.h: bindframe, specialbindframe, blockframe, fletframe, callframe, and
   a pushed value.  A flet frame holds the parts of its closure. *)
Inductive frame :=
| FBind (dynb lexb : ptr) (sym : nat) (val : option V)      (* None: UNBOUND *)
| FSpec (link : ptr) (sym : nat) (old : option V)
| FBlock (dynk lexk : ptr) (name : option nat)
| FFlet (name : nat) (ps : list nat) (body : list exp) (bfp ffp : ptr)
        (lexl dynl : ptr)
| FCall
| FArg (v : V).

Record ctx := mkC {
  mem : nat -> frame;
  vsp : nat;
  bindfp : ptr; sbindfp : ptr; blkfp : ptr; fletfp : ptr;
  dyn : dynamic V;              (* the values of special and global variables *)
  slot : option V;              (* the table's entry V_VARIABLE: see bindspecial *)
  wo : W
}.

Definition set_mem c m := mkC m (vsp c) (bindfp c) (sbindfp c) (blkfp c) (fletfp c) (dyn c) (slot c) (wo c).
Definition set_vsp c p := mkC (mem c) p (bindfp c) (sbindfp c) (blkfp c) (fletfp c) (dyn c) (slot c) (wo c).
Definition set_bindfp c p := mkC (mem c) (vsp c) p (sbindfp c) (blkfp c) (fletfp c) (dyn c) (slot c) (wo c).
Definition set_sbindfp c p := mkC (mem c) (vsp c) (bindfp c) p (blkfp c) (fletfp c) (dyn c) (slot c) (wo c).
Definition set_blkfp c p := mkC (mem c) (vsp c) (bindfp c) (sbindfp c) p (fletfp c) (dyn c) (slot c) (wo c).
Definition set_fletfp c p := mkC (mem c) (vsp c) (bindfp c) (sbindfp c) (blkfp c) p (dyn c) (slot c) (wo c).
Definition set_dyn c d := mkC (mem c) (vsp c) (bindfp c) (sbindfp c) (blkfp c) (fletfp c) d (slot c) (wo c).
Definition set_slot c d := mkC (mem c) (vsp c) (bindfp c) (sbindfp c) (blkfp c) (fletfp c) (dyn c) d (wo c).

Definition poke (m : nat -> frame) (a : nat) (f : frame) : nat -> frame :=
  fun b => if Nat.eqb b a then f else m b.

(* vpush, and the making of frames *)
Definition push (c : ctx) (f : frame) : ctx :=
  set_vsp (set_mem c (poke (mem c) (vsp c) f)) (S (vsp c)).

Definition above (p : ptr) (a : ptr) : bool :=        (* p > a *)
  match p, a with
  | None, _ => false
  | Some _, None => true
  | Some p, Some a => Nat.ltb a p
  end.

Inductive iout :=
| IVal (v : V) (c : ctx)
| IJmp (a : nat) (v : V) (c : ctx)       (* a long jump to the frame at a *)
| IErr.                                  (* error *)

(* eval.c 33-66.  The walk follows lexblink; k bounds its length. *)
Fixpoint find_var (m : nat -> frame) (k : nat) (p : ptr) (x : nat)
  : option (nat * option V) :=
  match k, p with
  | S k, Some a =>
      match m a with
      | FBind _ lx y v => if Nat.eqb y x then Some (a, v) else find_var m k lx x
      | _ => None
      end
  | _, _ => None
  end.

Definition getval (c : ctx) (x : nat) : option V :=
  match kinds x with
  | Special_ => dyn c x
  | _ => match find_var (mem c) (S (vsp c)) (bindfp c) x with
         | Some (_, Some v) => Some v
         | _ => dyn c x
         end
  end.

(* eval.c 68-95 *)
Definition setval (c : ctx) (x : nat) (v : V) : ctx :=
  match kinds x with
  | Special_ => set_dyn c (upd (dyn c) x (Some v))
  | _ => match find_var (mem c) (S (vsp c)) (bindfp c) x with
         | Some (a, Some _) =>
             match mem c a with
             | FBind d lx y _ => set_mem c (poke (mem c) a (FBind d lx y (Some v)))
             | _ => c
             end
         | _ => set_dyn c (upd (dyn c) x (Some v))
         end
  end.

(* eval.c 131-147.  The entry of the thread's table is chosen by the type of
   the variable, and a variable that is not proclaimed has the type
   V_VARIABLE, which is 1: all such variables share entry 1. *)
Definition bindspecial (c : ctx) (x : nat) (v : option V) : ctx :=
  match kinds x with
  | Variable_ =>
      let c1 := push c (FSpec (sbindfp c) x (slot c)) in
      set_sbindfp (set_slot c1 v) (Some (vsp c))
  | _ =>
      let c1 := push c (FSpec (sbindfp c) x (dyn c x)) in
      set_sbindfp (set_dyn c1 (upd (dyn c) x v)) (Some (vsp c))
  end.

(* eval.c 165-178 *)
Fixpoint unbind_loop (k : nat) (limit : nat) (c : ctx) : ctx :=
  match k, sbindfp c with
  | S k, Some a =>
      if Nat.leb limit a then
        match mem c a with
        | FSpec link x old =>
            let c1 := match kinds x with
                      | Variable_ => set_slot c old
                      | _ => set_dyn c (upd (dyn c) x old)
                      end in
            unbind_loop k limit (set_sbindfp c1 link)
        | _ => c
        end
      else c
  | _, _ => c
  end.

Definition unbindspecial (limit : nat) (c : ctx) : ctx :=
  match sbindfp c with
  | None => c
  | Some a => unbind_loop (S a) limit c
  end.

(* eval.c 180-192 *)
Definition fastbind (c : ctx) (x : nat) (v : option V) (lex : ptr) : ctx :=
  set_bindfp (push c (FBind (bindfp c) lex x v)) (Some (vsp c)).

(* eval.c 194-218: the walk over the frames of the form that binds *)
Fixpoint scan (m : nat -> frame) (k : nat) (p declscope : ptr) (x : nat)
  : option (option V) :=
  match k, p with
  | S k, Some a =>
      if above p declscope then
        match m a with
        | FBind _ lx y v => if Nat.eqb y x then Some v else scan m k lx declscope x
        | _ => None
        end
      else None
  | _, _ => None
  end.

(* None: error E_MULTIDECL *)
Definition vbind (c : ctx) (x : nat) (v : option V) (lex declscope : ptr)
  : option (ctx * ptr) :=
  match scan (mem c) (S (vsp c)) (bindfp c) declscope x with
  | Some None => let c1 := bindspecial c x v in Some (c1, bindfp c1)
  | Some (Some _) => None
  | None =>
      match kinds x with
      | Variable_ => let c1 := fastbind c x v lex in Some (c1, bindfp c1)
      | _ => let c1 := bindspecial c x v in Some (c1, bindfp c1)
      end
  end.

(* eval.c 220-235 *)
Fixpoint declare (decl : list nat) (c : ctx) (env : ptr) : option (ctx * ptr) :=
  match decl with
  | [] => Some (c, env)
  | x :: decl =>
      match kinds x with
      | Special_ => declare decl c env
      | _ => match vbind c x None env (bindfp c) with
             | Some (c1, env1) => declare decl c1 env1
             | None => None
             end
      end
  end.

(* makes.c 769-783 *)
Definition makeblock (c : ctx) (name : option nat) (link : ptr) : ctx :=
  set_blkfp (push c (FBlock (blkfp c) link name)) (Some (vsp c)).

Definition dynklink (c : ctx) (a : nat) : ptr :=
  match mem c a with FBlock d _ _ => d | _ => None end.

(* makes.c 785-801 *)
Definition makeflet (c : ctx) (f : nat) (def : list nat * list exp) (scp link : ptr) : ctx :=
  set_fletfp (push c (FFlet f (fst def) (snd def) (bindfp c) scp link (fletfp c)))
             (Some (vsp c)).

(* eval.c 97-107, the walk over local functions *)
Fixpoint find_fun (m : nat -> frame) (k : nat) (p : ptr) (f : nat)
  : option (list nat * list exp * ptr * ptr) :=
  match k, p with
  | S k, Some a =>
      match m a with
      | FFlet g ps body bfp ffp lexl _ =>
          if Nat.eqb g f then Some (ps, body, bfp, ffp) else find_fun m k lexl f
      | _ => None
      end
  | _, _ => None
  end.

(* specials.c 681-690, the walk over blocks *)
Fixpoint find_block (m : nat -> frame) (k : nat) (p : ptr) (n : nat) : option nat :=
  match k, p with
  | S k, Some a =>
      match m a with
      | FBlock _ lexk name =>
          if match name with Some y => Nat.eqb y n | None => false end then Some a
          else find_block m k lexk n
      | _ => None
      end
  | _, _ => None
  end.

Fixpoint flet_down (m : nat -> frame) (k : nat) (p : ptr) (limit : nat) : ptr :=
  match k, p with
  | S k, Some a =>
      if Nat.ltb limit a then
        match m a with
        | FFlet _ _ _ _ _ _ dynl => flet_down m k dynl limit
        | _ => p
        end
      else p
  | _, _ => p
  end.

(* eus.c 274-294; the block frame is the one the jump goes to *)
Definition unwind (c : ctx) (p : nat) : ctx :=
  let c1 := unbindspecial p c in
  set_fletfp c1 (flet_down (mem c1) (S (vsp c1)) (fletfp c1) p).

Definition ibind (r : option iout) (k : V -> ctx -> option iout) : option iout :=
  match r with
  | Some (IVal v c) => k v c
  | r => r
  end.

(* A block frame around k, as BLOCK, WHILE and funlambda set it up: [fin] is
   what they do when the body ends or the jump arrives. *)
Definition framed (c : ctx) (name : option nat) (link : ptr)
  (k : ctx -> option iout) (fin : ctx -> ctx) : option iout :=
  let my := vsp c in
  match k (makeblock c name link) with
  | Some (IVal v c') => Some (IVal v (fin (set_blkfp c' (dynklink c' my))))
  | Some (IJmp a v c') =>
      if Nat.eqb a my then Some (IVal v (fin (set_blkfp c' (dynklink c' my))))
      else Some (IJmp a v c')
  | r => r
  end.

Section Step.
Variable ev : exp -> ctx -> option iout.

Fixpoint iprogn (l : list exp) (v : V) (c : ctx) : option iout :=
  match l with
  | [] => Some (IVal v c)
  | a :: l => ibind (ev a c) (fun v c => iprogn l v c)
  end.

Fixpoint iloop (n : nat) (a : exp) (l : list exp) (c : ctx) : option iout :=
  match n with
  | O => None
  | S n => ibind (ev a c) (fun v c =>
             if isnil v then Some (IVal nilv c)
             else ibind (iprogn l nilv c) (fun _ c => iloop n a l c))
  end.

(* Evaluate forms and push their values, then go on with their number. *)
Fixpoint ievals (l : list exp) (n : nat) (c : ctx) (k : nat -> ctx -> option iout)
  : option iout :=
  match l with
  | [] => k n c
  | a :: l => ibind (ev a c) (fun v c => ievals l (S n) (push c (FArg v)) k)
  end.

Definition argval (c : ctx) (a : nat) : V :=
  match mem c a with FArg v => v | _ => nilv end.

(* specials.c 449-454: bind the variables of a let to the pushed values *)
Fixpoint ibinds (xs : list nat) (a : nat) (env bf : ptr) (c : ctx) : option ctx :=
  match xs with
  | [] => Some c
  | x :: xs =>
      match vbind c x (Some (argval c a)) env bf with
      | Some (c1, env1) => ibinds xs (S a) env1 bf c1
      | None => None
      end
  end.

(* eval.c 366-377: bind parameters to noarg pushed arguments *)
Fixpoint iparams (ps : list nat) (a noarg : nat) (env bf : ptr) (c : ctx)
  : option ctx :=
  match ps with
  | [] => match noarg with O => Some c | S _ => None end
  | x :: ps =>
      match noarg with
      | O => None
      | S noarg =>
          match vbind c x (Some (argval c a)) env bf with
          | Some (c1, env1) => iparams ps (S a) noarg env1 bf c1
          | None => None
          end
      end
  end.

(* eval.c 346-448 *)
Definition funlambda (fn : option nat) (ps : list nat) (body : list exp)
  (argp noarg : nat) (env : ptr) (c : ctx) : option iout :=
  let vspsave := vsp c in
  let sbfps := sbindfp c in
  let bf := bindfp c in
  match iparams ps argp noarg env bf (set_bindfp c env) with
  | None => Some IErr
  | Some c1 =>
      framed c1 fn None (iprogn body nilv) (fun c' =>
        unbindspecial (match sbfps with None => 0 | Some a => S a end)
          (set_vsp (set_bindfp c' bf) vspsave))
  end.

(* specials.c 408-461 *)
Definition iparlet (bs : list (nat * exp)) (decl : list nat) (l : list exp) (c : ctx)
  : option iout :=
  let spsave := vsp c in
  let bfsave := bindfp c in
  match declare decl c bfsave with
  | None => Some IErr
  | Some (c1, env) =>
      let vinits := vsp c1 in
      ievals (map snd bs) 0 c1 (fun n c2 =>
        match ibinds (firstn n (map fst bs)) vinits env bfsave c2 with
        | None => Some IErr
        | Some c3 =>
            ibind (iprogn l nilv c3) (fun v c4 =>
              Some (IVal v (unbindspecial spsave (set_vsp (set_bindfp c4 bfsave) spsave))))
        end)
  end.

(* specials.c 485-494 *)
Fixpoint iseq (bs : list (nat * exp)) (env bf : ptr) (c : ctx)
  (k : ctx -> option iout) : option iout :=
  match bs with
  | [] => k c
  | (x, a) :: bs =>
      ibind (ev a c) (fun v c =>
        match vbind c x (Some v) env bf with
        | Some (c1, env1) => iseq bs env1 bf c1 k
        | None => Some IErr
        end)
  end.

(* specials.c 463-504 *)
Definition iseqlet (bs : list (nat * exp)) (decl : list nat) (l : list exp) (c : ctx)
  : option iout :=
  let spsave := vsp c in
  let bf := bindfp c in
  match declare decl c bf with
  | None => Some IErr
  | Some (c1, env) =>
      iseq bs env bf c1 (fun c2 =>
        ibind (iprogn l nilv c2) (fun v c3 =>
          Some (IVal v (unbindspecial spsave (set_vsp (set_bindfp c3 bf) spsave)))))
  end.

(* specials.c 562-578 *)
Definition iflet (fns : list (nat * (list nat * list exp))) (l : list exp) (c : ctx)
  : option iout :=
  let ffp := fletfp c in
  let c1 := fold_left (fun c fn => makeflet c (fst fn) (snd fn) ffp (fletfp c)) fns c in
  ibind (iprogn l nilv c1) (fun v c2 => Some (IVal v (set_fletfp c2 ffp))).

(* specials.c 593-598: give every function of the form the whole group *)
Fixpoint patch (n : nat) (p top : ptr) (m : nat -> frame) : nat -> frame :=
  match n, p with
  | S n, Some a =>
      match m a with
      | FFlet f ps body bfp _ lexl dynl =>
          patch n lexl top (poke m a (FFlet f ps body bfp top lexl dynl))
      | _ => m
      end
  | _, _ => m
  end.

(* specials.c 580-601 *)
Definition ilabels (fns : list (nat * (list nat * list exp))) (l : list exp) (c : ctx)
  : option iout :=
  let ffp := fletfp c in
  let c1 := fold_left (fun c fn => makeflet c (fst fn) (snd fn) (fletfp c) (fletfp c)) fns c in
  let c2 := set_mem c1 (patch (length fns) (fletfp c1) (fletfp c1) (mem c1)) in
  ibind (iprogn l nilv c2) (fun v c3 => Some (IVal v (set_fletfp c3 ffp))).

(* specials.c 647-668 *)
Definition iblock (n : nat) (l : list exp) (c : ctx) : option iout :=
  framed c (Some n) (blkfp c) (iprogn l nilv)
    (fun c' => set_vsp (set_bindfp c' (bindfp c)) (vsp c)).

(* specials.c 365-388 *)
Definition iwhile (n : nat) (a : exp) (l : list exp) (c : ctx) : option iout :=
  framed c (Some 0) (blkfp c) (iloop n a l)
    (fun c' => set_bindfp (set_vsp c' (vsp c)) (bindfp c)).

(* specials.c 670-691 *)
Definition iretfrom (n : nat) (a : exp) (c : ctx) : option iout :=
  match find_block (mem c) (S (vsp c)) (blkfp c) n with
  | None => Some IErr
  | Some my =>
      ibind (ev a c) (fun v c1 =>
        Some (IJmp my v (unwind (set_blkfp c1 (Some my)) my)))
  end.

(* The values of n pushed arguments *)
Fixpoint argvals (c : ctx) (a n : nat) : list V :=
  match n with
  | O => []
  | S n => argval c a :: argvals c (S a) n
  end.
End Step.

(* eval.c 1641 and, for a form that is a list, ufuncall 1488: a call frame is
   made before and removed after, and the local functions are put back. *)
Fixpoint ieval (n : nat) (ex : exp) (c : ctx) {struct n} : option iout :=
  match n with
  | O => None
  | S n =>
    let ev := ieval n in
    let ufuncall (body : ctx -> option iout) : option iout :=
      let vf := vsp c in
      let oldfletfp := fletfp c in
      ibind (body (push c FCall)) (fun v c' =>
        Some (IVal v (set_fletfp (set_vsp c' vf) oldfletfp))) in
    match ex with
    | Const v => Some (IVal v c)
    | Var x => match getval c x with Some v => Some (IVal v c) | None => Some IErr end
    | Setq x a => ufuncall (fun c => ibind (ev a c) (fun v c => Some (IVal v (setval c x v))))
    | Progn l => ufuncall (iprogn ev l nilv)
    | If a p q => ufuncall (fun c => ibind (ev a c) (fun v c =>
                      if isnil v then ev q c else ev p c))
    | While a l => ufuncall (iwhile ev n a l)
    | Let bs decl l => ufuncall (iparlet ev bs decl l)
    | LetStar bs decl l => ufuncall (iseqlet ev bs decl l)
    | Block b l => ufuncall (iblock ev b l)
    | Return b a => ufuncall (iretfrom ev b a)
    | Flet fns l => ufuncall (iflet ev fns l)
    | Labels fns l => ufuncall (ilabels ev fns l)
    | Fun f args =>
        match find_fun (mem c) (S (vsp c)) (fletfp c) f with
        | Some (ps, body, env, fenv) =>               (* LAMCLOSURE *)
            ufuncall (fun c => ievals ev args 0 c (fun noarg c' =>
              funlambda ev (Some f) ps body (vsp c) noarg env (set_fletfp c' fenv)))
        | None =>
            match defs f with
            | None => Some IErr
            | Some (FLam ps body) =>                (* LAMBDA: env is NULL *)
                ufuncall (fun c => ievals ev args 0 c (fun noarg c' =>
                  funlambda ev (Some f) ps body (vsp c) noarg None c'))
            | Some (FPrim p) =>
                ufuncall (fun c => ievals ev args 0 c (fun noarg c' =>
                  match prim p (argvals c' (vsp c) noarg) (dyn c') (wo c') with
                  | Some (v, d, w) =>
                      Some (IVal v (mkC (mem c') (vsp c') (bindfp c') (sbindfp c')
                                        (blkfp c') (fletfp c') d (slot c') w))
                  | None => Some IErr
                  end))
            end
        end
    | Lam ps body args =>
        (* ufuncall 1528 sets env to bindfp for an operator that is a list,
           and 1612 then sets it to NULL, the operator being a lambda *)
        ufuncall (fun c => ievals ev args 0 c (fun noarg c' =>
          funlambda ev None ps body (vsp c) noarg None c'))
    end
  end.

End Interp.

Arguments FBind {V} dynb lexb sym val.
Arguments FSpec {V} link sym old.
Arguments FBlock {V} dynk lexk name.
Arguments FFlet {V} name ps body bfp ffp lexl dynl.
Arguments FCall {V}.
Arguments FArg {V} v.
Arguments mkC {V W}.
Arguments mem {V W} c n.
Arguments vsp {V W} c.
Arguments bindfp {V W} c.
Arguments sbindfp {V W} c.
Arguments blkfp {V W} c.
Arguments fletfp {V W} c.
Arguments dyn {V W} c x.
Arguments slot {V W} c.
Arguments wo {V W} c.
Arguments IVal {V W} v c.
Arguments IJmp {V W} a v c.
Arguments IErr {V W}.
Arguments set_mem {V W} c m /.
Arguments set_vsp {V W} c p /.
Arguments set_bindfp {V W} c p /.
Arguments set_sbindfp {V W} c p /.
Arguments set_blkfp {V W} c p /.
Arguments set_fletfp {V W} c p /.
Arguments set_dyn {V W} c d /.
Arguments set_slot {V W} c d /.
Arguments poke {V} m a f b.
Arguments push {V W} c f /.
Arguments ibind {V W} r k.
Arguments find_var {V} m k p x.
Arguments find_fun {V} m k p f.
Arguments find_block {V} m k p n.
Arguments scan {V} m k p declscope x.
Arguments flet_down {V} m k p limit.
Arguments framed {V W} c name link k fin.
Arguments makeblock {V W} c name link /.
Arguments makeflet {V W} c f def scp link /.
Arguments dynklink {V W} c a.
Arguments fastbind {V W} c x v lex /.
Arguments iprogn {V W} ev l v c.
Arguments ievals {V W} ev l n c k.
Arguments patch {V} n p top m.
