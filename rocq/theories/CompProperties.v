(** C79: compiled code does what evaluation does.

    [eval_function] of [CompLang] is the specification: an evaluator with an environment and no stack.  [compile] is the
    compiler of lisp/comp/comp.l and trans.l, [steps] runs the C text that it writes on the EusLisp stack ([CompModel]). *)
From Verif Require Import CompModel CompStatic CompProofs.

(** ** Specification *)

(** Calling the interpreted function ends in [o] *)
Definition evaluates (L : lisp) (name : nat) (params : list nat) (body : list exp) (args : list V) (s : state L) (o : out L V) : Prop :=
  exists n, eval_function L n name params body args s = Some o.
Definition loops (L : lisp) (name : nat) (params : list nat) (body : list exp) (args : list V) (s : state L) : Prop :=
  forall n, eval_function L n name params body args s = None.
(** Calling the compiled function *)
Definition begin (L : lisp) (code : list stmt) (args : list V) (s : state L) : config L := Running L code (start L args (gl L s) (wd L s)).
Definition ends (L : lisp) (code : list stmt) (args : list V) (s : state L) (c : config L) : Prop := exists k, steps L code k (begin L code args s) = c.
(** It returns [v], the global variables and the world are [s'], and no special binding is left on the stack *)
Definition returns (L : lisp) (code : list stmt) (args : list V) (s : state L) (v : V) (s' : state L) : Prop :=
  exists m, ends L code args s (Returned L v m) /\ mgl L m = gl L s' /\ mwd L m = wd L s' /\ bfp L m = None.
(** The functions in question: every free variable is a parameter or proclaimed special, and [plain] *)
Definition closed (L : lisp) (params : list nat) (body : list exp) : Prop :=
  forallb (plain (special L)) body = true /\ forall x, In x (flat_map fv body) -> In x params \/ special L x = true.

(** ** Theorems *)

Lemma run : forall L n name params body args s code, closed L params body -> compile (special L) name params body = Some code ->
  match eval_function L n name params body args s with
  | None => exists k code' m, n - list_max (map height body) <= k /\ steps L code k (begin L code args s) = Running L code' m
  | Some (Normal v e' s') => returns L code args s v s'
  | Some Err => ends L code args s (Failed L)
  | Some (Exit _ _ _ _) | Some (Jump _ _ _) => False
  end.
Proof.
  intros L n name params body args s code (HP & HF) HC.
  exact (function_run L code (compile_fresh L name params body code HC HP HF) n name params body args s HC HP HF).
Qed.
Lemma ends_later : forall L code k c j, steps L code k c = j -> (forall code' m, j <> Running L code' m) -> forall i, k <= i -> steps L code i c = j.
Proof.
  intros L code k c j H HJ i Hi. replace i with (k + (i - k)) by lia. rewrite steps_add, H. destruct (i - k) as [|x]; [reflexivity|]. cbn [steps].
  destruct j as [code' m|v m| |]; try reflexivity. exfalso. exact (HJ code' m eq_refl).
Qed.
Lemma ends_unique : forall L code args s a b, ends L code args s a -> ends L code args s b -> (forall code' m, a <> Running L code' m) ->
  (forall code' m, b <> Running L code' m) -> a = b.
Proof.
  intros L code args s a b (k & H1) (j & H2) NA NB. destruct (Nat.le_ge_cases k j) as [X|X].
  - rewrite <- H2. symmetry. exact (ends_later _ _ _ _ _ H1 NA j X).
  - rewrite <- H1. exact (ends_later _ _ _ _ _ H2 NB k X).
Qed.
(** whatever ends, is what evaluation gives *)
Lemma run_back : forall L name params body args s code c, closed L params body -> compile (special L) name params body = Some code ->
  ends L code args s c -> (forall code' m, c <> Running L code' m) ->
  (exists v e' s' m, evaluates L name params body args s (Normal v e' s') /\ c = Returned L v m /\ mgl L m = gl L s' /\ mwd L m = wd L s' /\ bfp L m = None) \/
  (evaluates L name params body args s Err /\ c = Failed L).
Proof.
  intros L name params body args s code c HC HK (k & H) HN. set (n := k + 1 + list_max (map height body)). pose proof (run L n name params body args s code HC HK) as X.
  destruct (eval_function L n name params body args s) as [[v e' s'|b v e' s'|t e' s'|]|] eqn:E; [| | | |].
  - left. destruct X as (m & X1 & X2). exists v, e', s', m. split; [exists n; exact E|]. split; [|exact X2]. eapply ends_unique; [exists k; exact H|exact X1|exact HN|discriminate].
  - destruct X.
  - destruct X.
  - right. split; [exists n; exact E|]. eapply ends_unique; [exists k; exact H|exact X|exact HN|discriminate].
  - exfalso. destruct X as (j & code' & m & X1 & X2). assert (J : k <= j) by lia. rewrite (ends_later _ _ _ _ _ H HN j J) in X2. exact (HN code' m X2).
Qed.

(** A call returns what evaluation gives, with the same effects. *)
Theorem C79_compiled_returns_partial : forall L name params body args s code v e' s',
  closed L params body -> compile (special L) name params body = Some code ->
  evaluates L name params body args s (Normal v e' s') -> returns L code args s v s'.
Proof. intros L name params body args s code v e' s' HC HK (n & H). pose proof (run L n name params body args s code HC HK) as X. rewrite H in X. exact X. Qed.
Print Assumptions C79_compiled_returns_partial.

(** ... and only that. *)
Theorem C79_returned_evaluates_partial : forall L name params body args s code v m,
  closed L params body -> compile (special L) name params body = Some code ->
  ends L code args s (Returned L v m) ->
  bfp L m = None /\ exists e' s', evaluates L name params body args s (Normal v e' s') /\ mgl L m = gl L s' /\ mwd L m = wd L s'.
Proof.
  intros L name params body args s code v m HC HK H. destruct (run_back _ _ _ _ _ _ _ _ HC HK H ltac:(discriminate)) as [(v' & e' & s' & m' & H1 & H2 & H3 & H4 & H5)|(_ & H1)]; [|discriminate].
  injection H2 as <- <-. split; [exact H5|]. exists e', s'. auto.
Qed.
Print Assumptions C79_returned_evaluates_partial.

(** An error is an error in both. *)
Theorem C79_compiled_error_partial : forall L name params body args s code,
  closed L params body -> compile (special L) name params body = Some code ->
  evaluates L name params body args s Err <-> ends L code args s (Failed L).
Proof.
  intros L name params body args s code HC HK. split.
  - intros (n & H). pose proof (run L n name params body args s code HC HK) as X. rewrite H in X. exact X.
  - intro H. destruct (run_back _ _ _ _ _ _ _ _ HC HK H ltac:(discriminate)) as [(v' & e' & s' & m' & _ & H2 & _)|(H1 & _)]; [discriminate|exact H1].
Qed.
Print Assumptions C79_compiled_error_partial.

(** What goes on forever interpreted goes on forever compiled, and the other way around. *)
Theorem C79_compiled_loops_partial : forall L name params body args s code,
  closed L params body -> compile (special L) name params body = Some code ->
  loops L name params body args s <-> (forall k, exists code' m, steps L code k (begin L code args s) = Running L code' m).
Proof.
  intros L name params body args s code HC HK. split.
  - intros H k. destruct (steps L code k (begin L code args s)) as [code' m|v m| |] eqn:E; [eauto|exfalso..];
      (destruct (run_back L name params body args s code _ HC HK (ex_intro _ k E) ltac:(discriminate)) as [(v' & e' & s' & m' & (n & X) & _)|((n & X) & _)]; rewrite H in X; discriminate).
  - intros H n. pose proof (run L n name params body args s code HC HK) as X. destruct (eval_function L n name params body args s) as [[v e' s'|b v e' s'|t e' s'|]|]; [exfalso..|reflexivity]; try contradiction.
    + destruct X as (m & (k & X) & _). destruct (H k) as (code' & m' & Y). congruence.
    + destruct X as (k & X). destruct (H k) as (code' & m' & Y). congruence.
Qed.
Print Assumptions C79_compiled_loops_partial.

(** The C text never takes a stray word of the stack for a value, jumps to a missing label, or unbinds what it did not bind. *)
Theorem C79_never_stuck_partial : forall L name params body args s code,
  closed L params body -> compile (special L) name params body = Some code -> ~ ends L code args s (Stuck L).
Proof.
  intros L name params body args s code HC HK H. destruct (run_back _ _ _ _ _ _ _ _ HC HK H ltac:(discriminate)) as [(v' & e' & s' & m' & _ & H2 & _)|(_ & H2)]; discriminate.
Qed.
Print Assumptions C79_never_stuck_partial.

(** What the compiler accepts has no return-from or go out of the function. *)
Theorem C79_no_stray_exit_partial : forall L name params body args s code b v t e' s',
  closed L params body -> compile (special L) name params body = Some code ->
  ~ evaluates L name params body args s (Exit b v e' s') /\ ~ evaluates L name params body args s (Jump t e' s').
Proof.
  intros L name params body args s code b v t e' s' HC HK. split; intros (n & H); pose proof (run L n name params body args s code HC HK) as X; rewrite H in X; exact X.
Qed.
Print Assumptions C79_no_stray_exit_partial.

(** The compiler accepts every such function in which a return-from names a block around it and a go a tag around it. *)
Theorem C79_accepts_partial : forall L name params body, closed L params body -> forallb (scoped [name] []) body = true ->
  exists code, compile (special L) name params body = Some code.
Proof. intros L name params body (HP & HF) HS. exact (compile_total L name params body HP HF HS). Qed.
Print Assumptions C79_accepts_partial.

(** ** Instances *)

(** The world is a counter.  Function 1 counts and stores its first argument in the variable 101, function 2 fails, function 3 returns
    the value of the variable 101 and function 4 the counter.  Variables from 100 are special. *)
Definition world : lisp := mkLisp nat
  (fun f vs g w => match f with
                   | 1 => Some (T, upd g 101 (hd NIL vs), S w)
                   | 2 => None
                   | 3 => Some (g 101, g, w)
                   | 4 => Some (Obj w, g, w)
                   | _ => Some (NIL, g, w)
                   end)
  (fun v _ => match v with NIL => true | Obj n => Nat.even n | T => false end)
  (fun v w => match v with Obj n => Obj (n / 2) | _ => NIL end) (fun v _ => NIL) (fun p v => V_eqb v T) (fun x => Nat.leb 100 x).
Definition s0 : state world := mkState world (fun x => Obj x) 0.
Definition num (n : nat) : exp := Const (Obj n).

(** (defun f (x *p* )
      (while (not (eq (f4) 3))
        (let ((*q* x) (y *p* ))
          (setq x y)
          (tagbody a (f1 *q*) (if (eq (f4) 2) (return-from f (let* (( *p* 8) (z (f3))) (cond ((null z) 6) (z)))) (go b)) b)))) *)
Definition f_body : list exp :=
  [While (Null (Eq (Call 4 []) (num 3)))
     [Let [(101, Var 2); (3, Var 100)]
        [Setq [(2, Var 3)];
         Tagbody [inl 1; inr (Call 1 [Var 101]); inr (If (Eq (Call 4 []) (num 2)) (ReturnFrom 9 (LetStar [(100, num 8); (4, Call 3 [])] [Cond [(Null (Var 4), [num 6]); (Var 4, [])]])) (Go 2)); inl 2]]]].
Example C79_example_closed : closed world [2; 100] f_body.
Proof.
  split; [vm_compute; reflexivity|]. intros x H. vm_compute in H. repeat (destruct H as [<-|H]; [first [left; vm_compute; tauto|right; reflexivity]|]). destruct H.
Qed.
Example C79_example_scoped : forallb (scoped [9] []) f_body = true.
Proof. reflexivity. Qed.
Example C79_example_rejected : compile (special world) 9 [] [Block 3 []; ReturnFrom 3 (num 1)] = None /\ compile (special world) 9 [] [Go 1; Tagbody [inl 1]] = None.
Proof. split; reflexivity. Qed.
Example C79_example_compiles : exists code, compile (special world) 9 [2; 100] f_body = Some code /\ length code = 54.
Proof. eexists. split; vm_compute; reflexivity. Qed.
Example C79_example_value : exists e' s', evaluates world 9 [2; 100] f_body [Obj 5; Obj 7] s0 (Normal (Obj 7) e' s') /\ wd world s' = 2 /\ gl world s' 100 = Obj 100 /\ gl world s' 101 = Obj 101.
Proof. eexists. eexists. split; [exists 30; vm_compute; reflexivity|]. vm_compute. auto. Qed.
Example C79_example_error : evaluates world 9 [2] [Let [(100, Var 2)] [Call 1 [Call 2 []]]] [T] s0 Err.
Proof. exists 9. vm_compute. reflexivity. Qed.
Example C79_example_arguments : evaluates world 9 [2] [Var 2] [] s0 Err.
Proof. exists 9. vm_compute. reflexivity. Qed.
Example C79_example_loop : loops world 9 [] [While (Const T) []] [] s0.
Proof.
  intro n. unfold eval_function. cbn -[eval]. assert (H : forall k, eval world k (While (Const T) []) [] s0 = None).
  { induction k as [|k IH]; [reflexivity|]. cbn [eval]. destruct k as [|k]; [reflexivity|]. change (eval world (S k) (Const T) [] s0) with (Some (@Normal world V T [] s0)). cbn -[eval]. rewrite IH. reflexivity. }
  rewrite H. reflexivity.
Qed.

(** ** Where compiled code is different *)

(** (defun f () (let ((x 1)) (let ((x 2) (y (let ((z 0)) x))) y))) *)
Definition nest_body : list exp := [Let [(2, num 1)] [Let [(2, num 2); (3, Let [(4, num 0)] [Var 2])] [Var 3]]].
Theorem C79_let_refuted : exists (L : lisp) name params body args s code v e' s' m,
  (forall x, In x (flat_map fv body) -> In x params \/ special L x = true) /\ compile (special L) name params body = Some code /\
  evaluates L name params body args s (Normal v e' s') /\ ends L code args s (Returned L (Obj 2) m) /\ v = Obj 1.
Proof.
  exists world, 9, [], nest_body, [], s0. eexists. exists (Obj 1). eexists. eexists. eexists.
  split; [intros x H; vm_compute in H; destruct H|]. split; [vm_compute; reflexivity|]. split; [exists 9; vm_compute; reflexivity|]. split; [exists 30; vm_compute; reflexivity|reflexivity].
Qed.
Print Assumptions C79_let_refuted.

(** (defun f () (let* ((y x) (x 1)) (f3))) where x is a global variable that is set but not proclaimed, and f3 returns it *)
Definition dyn : lisp := mkLisp nat (fun f vs g w => Some (g 2, g, w)) (fun _ _ => false) (fun v _ => v) (fun v _ => v) (fun _ _ => false) (fun x => Nat.leb 100 x).
Theorem C79_undeclared_refuted : exists (L : lisp) name params body args s code v e' s' m,
  forallb (plain (special L)) body = true /\ compile (special L) name params body = Some code /\
  evaluates L name params body args s (Normal v e' s') /\ ends L code args s (Returned L (Obj 1) m) /\ v = Obj 2.
Proof.
  exists dyn, 9, [], [LetStar [(3, Var 2); (2, num 1)] [Call 3 []]], [], (mkState dyn (fun x => Obj x) 0). eexists. exists (Obj 2). eexists. eexists. eexists.
  split; [reflexivity|]. split; [vm_compute; reflexivity|]. split; [exists 9; vm_compute; reflexivity|]. split; [exists 30; vm_compute; reflexivity|reflexivity].
Qed.
Print Assumptions C79_undeclared_refuted.
