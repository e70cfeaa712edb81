(* C82: an interpreted program means what its text says.

   [eval] (ScopeLang) gives the meaning by the text; [ieval] (ScopeModel) is
   the interpreter with its stack of frames. *)

From Coq Require Import List Bool Arith Lia.
From Verif Require Import ScopeLang ScopeModel ScopeSpec ScopeProofs.
Import ListNotations.

(* Both run on, both fail, or both end with the same value, the same special
   and global variables and the same world; and the interpreter has put its
   stack pointer and its four frame pointers back. *)
Definition same_end {V W} (c : ctx V W) (r : option (out V W)) (ir : option (iout V W)) : Prop :=
  match r, ir with
  | None, None => True
  | Some Err, Some IErr => True
  | Some (Val v s), Some (IVal v' c') =>
      v' = v /\ dyn c' = sdyn s /\ wo c' = swo s /\
      vsp c' = vsp c /\ bindfp c' = bindfp c /\ sbindfp c' = sbindfp c /\
      blkfp c' = blkfp c /\ fletfp c' = fletfp c
  | _, _ => False
  end.

(* The top level: no bindings, whatever the stack memory holds. *)
Definition top {V W} (mm : nat -> frame V) (v : nat) (d : dynamic V) (sl : option V) (w : W)
  : ctx V W := mkC mm v None None None None d sl w.

Definition start {V W} (d : dynamic V) (w : W) : state V W := mkS [] d 0 w.

Theorem C82_scope_partial :
  forall (V W : Type) (nilv : V) (isnil : V -> bool) (kinds : nat -> kind)
         (defs : nat -> option (fdef V))
         (prim : nat -> list V -> dynamic V -> W -> option (V * dynamic V * W))
         (local : nat -> bool) (ex : exp V) (n : nat) mm v d sl w,
  good_defs kinds local defs ->
  good kinds local [] [] ex = true ->
  same_end (top mm v d sl w)
    (eval V W nilv isnil kinds defs prim n [] FEnd [] ex (start d w))
    (ieval V W nilv isnil kinds defs prim n ex (top mm v d sl w)).
Proof.
  intros V W nilv isnil kinds defs prim local ex n mm v d sl w GD G.
  pose proof (all_agree V W nilv isnil kinds defs prim local GD n ex [] [] FEnd [] [] [] []
    (start d w) (top mm v d sl w) G (gf_end _ _ _) (top_inv V W kinds local mm v d sl w)) as H.
  cbn [map app] in H.
  destruct (eval V W nilv isnil kinds defs prim n [] FEnd [] ex (start d w)) as [[r s|id r s|]|];
    destruct (ieval V W nilv isnil kinds defs prim n ex (top mm v d sl w)) as [[r' c'|a r' c'|]|];
    cbn in H |- *; try tauto.
  - destruct H as (-> & D & Hb & Hv & Hf). destruct D. cbn in *. tauto.
  - destruct H as [_ []]. destruct j_in as (? & []).
Qed.
Print Assumptions C82_scope_partial.

(* ------------------------------------------------------------------ *)
(* Examples: numbers for values, 0 for NIL *)

Definition ex_p0 (p : nat) (vs : list nat) (d : dynamic nat) (w : unit)
  : option (nat * dynamic nat * unit) :=
  match p, vs with
  | 0, [a; b] => Some (a + b, d, w)
  | 1, [a] => Some (pred a, d, w)
  | _, _ => None
  end.
Definition ex_kk (x : nat) : kind := match x with 50 => Special_ | 51 => Global_ | _ => Variable_ end.
Definition ex_nn (a : nat) : bool := Nat.eqb a 0.

(* 100 is +, 101 is 1-; (defun f102 (x) (+ x s)) with s special *)
Definition ex_dd (f : nat) : option (fdef nat) :=
  match f with
  | 100 => Some (FPrim 0)
  | 101 => Some (FPrim 1)
  | 102 => Some (FLam [1] [Fun 100 [Var 1; Var 50]])
  | 103 => Some (FLam [] [Fun 200 []])          (* (defun f103 () (f200)) *)
  | 200 => Some (FLam [] [Const 7])             (* (defun f200 () 7) *)
  | _ => None
  end.
Definition ex_gg (x : nat) : option nat := match x with 50 => Some 1000 | _ => None end.

Definition ex_text (n : nat) (ex : exp nat) := eval nat unit 0 ex_nn ex_kk ex_dd ex_p0 n [] FEnd [] ex (start ex_gg tt).
Definition ex_run (n : nat) (ex : exp nat) := ieval nat unit 0 ex_nn ex_kk ex_dd ex_p0 n ex (top (fun _ => FCall) 0 ex_gg None tt).

Definition value {V W} (r : option (out V W)) : option V :=
  match r with Some (Val v _) => Some v | _ => None end.
Definition ivalue {V W} (r : option (iout V W)) : option V :=
  match r with Some (IVal v _) => Some v | _ => None end.

(* (let ((x 5) (s 2000))
     (flet ((f300 (y) (setq x (+ x y)) x))
       (labels ((f301 (k) (if k (progn (f300 k) (f301 (1- k))) (return-from f301 x))))
         (let ((x 1)) (+ (f102 x) (f301 3)))))) *)
Definition ex_prog : exp nat :=
  Let [(1, Const 5); (50, Const 2000)] []
   [Flet [(300, ([2], [Setq 1 (Fun 100 [Var 1; Var 2]); Var 1]))]
     [Labels [(301, ([3], [If (Var 3)
                 (Progn [Fun 300 [Var 3]; Fun 301 [Fun 101 [Var 3]]])
                 (Return 301 (Var 1))]))]
       [Let [(1, Const 1)] [] [Fun 100 [Fun 102 [Var 1]; Fun 301 [Const 3]]]]]].

Definition ex_loc3 (f : nat) : bool := Nat.leb 300 f.

Example C82_good_defs : good_defs ex_kk ex_loc3 ex_dd.
Proof.
  intros f d. unfold ex_dd.
  do 300 (destruct f as [|f]; [cbv beta iota; try discriminate;
          intros [= <-]; split; reflexivity|]); discriminate.
Qed.
Example C82_good_prog : good ex_kk ex_loc3 [] [] ex_prog = true.
Proof. reflexivity. Qed.
Example C82_text_prog : value (ex_text 40 ex_prog) = Some 2012.
Proof. vm_compute. reflexivity. Qed.
Example C82_run_prog : ivalue (ex_run 40 ex_prog) = Some 2012.
Proof. vm_compute. reflexivity. Qed.

(* Leaving a block with special variables bound *)
Definition ex_leave : exp nat :=
  Progn [Block 9 [Let [(50, Const 3)] [] [While (Var 50) [Return 9 (Var 50)]]];
         Fun 102 [Const 0]].
Example C82_leave : good ex_kk ex_loc3 [] [] ex_leave = true /\
  value (ex_text 40 ex_leave) = Some 1000 /\ ivalue (ex_run 40 ex_leave) = Some 1000.
Proof. vm_compute. auto. Qed.

(* ------------------------------------------------------------------ *)
(* What goes wrong outside *)

(* (flet ((f200 () 8)) (f103)): the ex_text of f103 names the global f200, the
   interpreter calls the caller's local one. *)
Definition ex_seen : exp nat := Flet [(200, ([], [Const 8]))] [Fun 103 []].
Theorem C82_flet_refuted : exists ex n v v',
  value (ex_text n ex) = Some v /\ ivalue (ex_run n ex) = Some v' /\ v <> v'.
Proof. exists ex_seen, 10, 7, 8. vm_compute. repeat split. discriminate. Qed.

(* (let ((x 5)) ((lambda (y) (+ x y)) 1)): the interpreter does not see x. *)
Definition ex_lamb : exp nat := Let [(1, Const 5)] [] [Lam [2] [Fun 100 [Var 1; Var 2]] [Const 1]].
Theorem C82_lambda_refuted : exists ex n v,
  value (ex_text n ex) = Some v /\ ex_run n ex = Some IErr.
Proof. exists ex_lamb, 10, 6. vm_compute. auto. Qed.

(* let* with a variable ex_twice: (let* ((x 1) (x (+ x x))) x) *)
Definition ex_twice : exp nat := LetStar [(1, Const 1); (1, Fun 100 [Var 1; Var 1])] [] [Var 1].
Theorem C82_letstar_refuted : exists ex n v,
  value (ex_text n ex) = Some v /\ ex_run n ex = Some IErr.
Proof. exists ex_twice, 10, 2. vm_compute. auto. Qed.

(* (let ((x 5)) (declare (special x)) x): the interpreter finds x unbound. *)
Definition ex_decl : exp nat := Let [(1, Const 5)] [1] [Var 1].
Theorem C82_declare_refuted : exists ex n v,
  value (ex_text n ex) = Some v /\ ex_run n ex = Some IErr.
Proof. exists ex_decl, 10, 5. vm_compute. auto. Qed.

(* (block b (flet ((f300 () (return-from b 4))) (f300))) *)
Definition ex_outer : exp nat := Block 9 [Flet [(300, ([], [Return 9 (Const 4)]))] [Fun 300 []]].
Theorem C82_return_refuted : exists ex n v,
  value (ex_text n ex) = Some v /\ ex_run n ex = Some IErr.
Proof. exists ex_outer, 10, 4. vm_compute. auto. Qed.
Print Assumptions C82_flet_refuted.
Print Assumptions C82_lambda_refuted.
Print Assumptions C82_letstar_refuted.
Print Assumptions C82_declare_refuted.
Print Assumptions C82_return_refuted.
