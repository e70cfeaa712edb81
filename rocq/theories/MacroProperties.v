(** C81: the macros for sequencing, assignment, iteration and choice mean what the manual says.

    [ends x e s o] is: evaluating the form [x] ends with the outcome [o] ([MacroSpec], from the evaluator of [CompLang]).
    The macros are those of [MacroModel]; what they should mean is in [MacroSpec].  An equivalence says both that the
    expansion does what is specified and that it does nothing else: errors, returns and gos out of the forms included, and it
    does not end if and only if the specification has no outcome. *)
From Verif Require Import CompLang CompEval MacroModel MacroSpec MacroProofs.

Theorem C81_when : forall L c l e s o, ends L (m_when c l) e s o <->
  seq L (ends L c e s) (fun v e s => if V_eqb v NIL then value L NIL e s else ends_progn L l e s) o.
Proof. exact when_ok. Qed.
Print Assumptions C81_when.

Theorem C81_unless : forall L c l e s o, ends L (m_unless c l) e s o <->
  seq L (ends L c e s) (fun v e s => if V_eqb v NIL then ends_progn L l e s else value L NIL e s) o.
Proof. exact unless_ok. Qed.
Print Assumptions C81_unless.

(** The value of the first form, although the others are evaluated after it *)
Theorem C81_prog1 : forall L g a l e s o, special L g = false -> forallb (unmentioned g) l = true ->
  (ends L (m_prog1 g a l) e s o <-> prog1_spec L a l e s o).
Proof. exact prog1_ok. Qed.
Print Assumptions C81_prog1.

(** All the values are computed before the first assignment. *)
Theorem C81_psetq : forall L gs l e s o, fresh L gs l -> (ends L (m_psetq gs l) e s o <-> psetq_spec L l e s o).
Proof. exact psetq_ok. Qed.
Print Assumptions C81_psetq.

(** The key is evaluated once, and the forms of the first clause that has it are evaluated. *)
Theorem C81_case : forall L memq g key clauses keys e s o, special L g = false ->
  Forall2 (fun c k => matches L memq (fst c) (fst k) /\ snd c = snd k) clauses keys ->
  (forall c, In c clauses -> forallb (unmentioned g) (snd c) = true) ->
  (ends L (m_case memq g key clauses) e s o <-> case_spec L key keys e s o).
Proof. exact case_ok. Qed.
Print Assumptions C81_case.

Theorem C81_loop : forall L tag forms e s o, forallb (no_go tag) forms = true ->
  (ends L (m_loop tag forms) e s o <-> loop_spec L forms e s o).
Proof. exact loop_ok. Qed.
Print Assumptions C81_loop.

(** The first values of the variables of do, and what the variables that have a step become *)
Definition first_values (vars : list dovar) : list (nat * exp) := combine (map dv_name vars) (map dv_init vars).
Definition stepped (vars : list dovar) : list (nat * exp) :=
  fold_right (fun v r => match dv_step v with Some a => (dv_name v, a) :: r | None => r end) [] vars.
Lemma first_values_inits : forall vars, inits vars = first_values vars.
Proof. induction vars as [|v r IH]; [reflexivity|]. unfold inits, first_values in *. cbn [map combine]. rewrite IH. reflexivity. Qed.
Lemma stepped_steps : forall vars, steps vars = stepped vars.
Proof. induction vars as [|v r IH]; [reflexivity|]. unfold steps in *. cbn [flat_map stepped fold_right]. rewrite IH. destruct (dv_step v); reflexivity. Qed.

(** do steps its variables at once, do* one after the other; return leaves either. *)
Theorem C81_do : forall L tag gs vars test result forms e s o, fresh L gs (stepped vars) ->
  forallb (no_go tag) (test :: result ++ forms) = true -> forallb (no_go tag) (map snd (stepped vars)) = true ->
  (ends L (m_do tag gs vars test result forms) e s o <-> do_spec L (first_values vars) (stepped vars) test result forms e s o).
Proof.
  intros L tag gs vars test result forms e s o. rewrite <- first_values_inits, <- stepped_steps. apply do_ok.
Qed.
Print Assumptions C81_do.

Theorem C81_dostar : forall L tag vars test result forms e s o,
  forallb (no_go tag) (test :: result ++ forms) = true -> forallb (no_go tag) (map snd (stepped vars)) = true ->
  (ends L (m_dostar tag vars test result forms) e s o <-> dostar_spec L (first_values vars) (stepped vars) test result forms e s o).
Proof.
  intros L tag vars test result forms e s o. rewrite <- first_values_inits, <- stepped_steps. apply dostar_ok.
Qed.
Print Assumptions C81_dostar.

(** The full claim for dolist is this without the hypothesis on return, see [C81_dolist_refuted]. *)
Theorem C81_dolist_partial : forall L g2 g x l result forms e s o, special L g = false -> special L g2 = false -> g2 <> g -> x <> g ->
  forallb (unmentioned g) forms = true -> unmentioned g result = true ->
  forallb no_return (l :: result :: forms) = true ->
  (ends L (m_dolist g g2 x l result forms) e s o <-> block_nil L (dolist_spec L x l result forms e s) o).
Proof. exact dolist_ok. Qed.
Print Assumptions C81_dolist_partial.

(** What it does whether or not there is a return: one in the forms ends the iteration, but then the result form is evaluated,
    and one in the list or the result form leaves a block outside. *)
Theorem C81_dolist_return_partial : forall L g2 g x l result forms e s o, special L g = false -> special L g2 = false -> g2 <> g -> x <> g ->
  forallb (unmentioned g) forms = true -> unmentioned g result = true ->
  (ends L (m_dolist g g2 x l result forms) e s o <->
   seq L (ends L l e s) (fun v e s => with_var L x NIL (fun e s =>
     seq L (block_nil L (each L x forms v e s)) (fun _ e s => ends L result e s)) e s) o).
Proof. exact dolist_exact. Qed.
Print Assumptions C81_dolist_return_partial.

(** The full claim for dotimes is this without the hypothesis on return.  That the forms do not assign the variable is part of
    it: the manual says that the variable counts. *)
Theorem C81_dotimes_partial : forall L num less add1 x g forms, counts L num less add1 -> special L x = false -> special L g = false ->
  x <> g -> forallb (unmentioned g) forms = true -> forallb (no_setq x) forms = true -> forallb no_return forms = true ->
  forall count result e s o, forallb no_return [count; result] = true -> unmentioned g result = true ->
  (forall v e1 s1, ends L count e s (Normal v e1 s1) -> exists k, v = num k) ->
  (ends L (m_dotimes (num 0) less add1 g x count result forms) e s o <->
   block_nil L (dotimes_spec L num x count result forms e s) o).
Proof. exact dotimes_ok. Qed.
Print Assumptions C81_dotimes_partial.

(** ** Instances *)

(** The number n is [Obj n] and the list of k, ..., 2, 1 is [Obj (100 + k)].  Functions: 1 is less-than, 2 is 1+, 3 is memq, 4
    appends the digit to the world, 5 fails.  Variables from 200 are special. *)
Definition below (k n : nat) : bool := Nat.ltb n k.
Definition desk : lisp := mkLisp nat
  (fun f vs g w => match f, vs with
                   | 1, [Obj a; Obj b] => Some (truth (below b a), g, w)
                   | 2, [Obj a] => Some (Obj (S a), g, w)
                   | 3, [Obj a; Obj l] => Some (truth (negb (Nat.eqb a 0) && Nat.leb (100 + a) l), g, w)
                   | 3, [_; Obj l] => Some (NIL, g, w)
                   | 4, [Obj a] => Some (T, g, 10 * w + a)
                   | _, _ => None
                   end)
  (fun v _ => match v with NIL => true | Obj n => Nat.ltb 100 n | T => false end)
  (fun v _ => match v with Obj n => Obj (n - 100) | _ => NIL end)
  (fun v _ => match v with Obj n => if Nat.eqb n 101 then NIL else Obj (n - 1) | _ => NIL end)
  (fun _ _ => false) (fun x => Nat.leb 200 x).
Definition d0 : state desk := mkState desk (fun x => Obj x) 0.
Definition num (n : nat) : exp := Const (Obj n).
Definition say (x : nat) : exp := Call 4 [Var x].

Lemma desk_counts : counts desk Obj 1 2.
Proof. split; reflexivity. Qed.

(** (prog1 x (setq x 5) (say x)) *)
Example C81_example_prog1 : prog1_spec desk (Var 2) [Setq [(2, num 5)]; say 2] [(2, Obj 3)] d0 (Normal (Obj 3) [(2, Obj 5)] (mkState desk (gl desk d0) 5)).
Proof. apply (C81_prog1 desk 50); [reflexivity..|]. exists 9. vm_compute. reflexivity. Qed.

(** (psetq a b b a *p* a) *)
Example C81_example_psetq : exists s, psetq_spec desk [(2, Var 3); (3, Var 2); (200, Var 2)] [(2, Obj 7); (3, Obj 8)] d0 (Normal NIL [(2, Obj 8); (3, Obj 7)] s) /\ gl desk s 200 = Obj 7.
Proof.
  eexists. split; [apply (C81_psetq desk [50; 51; 52])|].
  - split; [repeat constructor; cbn; intuition discriminate|]. split; [reflexivity|]. split.
    + intros g H. cbn in H. intuition (subst; reflexivity).
    + intros g p G P. cbn in G, P. intuition (subst; cbn; first [discriminate|reflexivity]).
  - exists 9. reflexivity.
  - reflexivity.
Qed.

(** (case x (5 1) ((3 2 1) (say x) 2) (t 3)) *)
Definition clauses : list (head * list exp) := [(Atom (Obj 5), [num 1]); (Keys (Obj 103), [say 2; num 2]); (Otherwise, [num 3])].
Example C81_example_case : Forall2 (fun c k => matches desk 3 (fst c) (fst k) /\ snd c = snd k) clauses
  [(Some [Obj 5], [num 1]); (Some [Obj 3; Obj 2; Obj 1], [say 2; num 2]); (None, [num 3])] /\
  ends desk (m_case 3 50 (Var 2) clauses) [(2, Obj 3)] d0 (Normal (Obj 2) [(2, Obj 3)] (mkState desk (gl desk d0) 3)) /\
  ends desk (m_case 3 50 (Var 2) clauses) [(2, Obj 4)] d0 (Normal (Obj 3) [(2, Obj 4)] d0).
Proof.
  split; [|split; exists 9; reflexivity]. repeat constructor. cbn [matches fst].
  intros v g w. destruct v as [| |[|[|[|[|n]]]]]; eexists; (split; [reflexivity|]); split; intros; first [reflexivity|discriminate].
Qed.

(** (do ((i 0 (1+ i)) (j 9 i)) ((not (< i 3)) j) (say j)), and with do-star *)
Definition dovars : list dovar := [DoVar 2 (num 0) (Some (Call 2 [Var 2])); DoVar 3 (num 9) (Some (Var 2)); DoVar 4 (num 1) None].
Definition dotest : exp := Null (Call 1 [Var 2; num 3]).
Example C81_example_do : fresh desk [50; 51] (stepped dovars) /\ forallb (no_go 60) (dotest :: [Var 3] ++ [say 3]) = true /\
  forallb (no_go 60) (map snd (stepped dovars)) = true /\
  (exists s, ends desk (m_do 60 [50; 51] dovars dotest [Var 3] [say 3]) [] d0 (Normal (Obj 2) [] s) /\ wd desk s = 901) /\
  (exists s, ends desk (m_dostar 60 dovars dotest [Var 3] [say 3]) [] d0 (Normal (Obj 3) [] s) /\ wd desk s = 912).
Proof.
  split; [|split; [reflexivity|split; [reflexivity|split]]].
  - split; [repeat constructor; cbn; intuition discriminate|]. split; [reflexivity|]. split.
    + intros g H. cbn in H. intuition (subst; reflexivity).
    + intros g p G P. cbn in G, P. intuition (subst; cbn; first [discriminate|reflexivity]).
  - eexists. split; [exists 40; vm_compute; reflexivity|reflexivity].
  - eexists. split; [exists 40; vm_compute; reflexivity|reflexivity].
Qed.

(** (loop (say x) (setq x (1+ x)) (if (< x 4) nil (return 6))) *)
Example C81_example_loop : exists s, ends desk (m_loop 60 [say 2; Setq [(2, Call 2 [Var 2])]; If (Call 1 [Var 2; num 4]) (Const NIL) (ReturnFrom 0 (num 6))]) [(2, Obj 1)] d0
  (Normal (Obj 6) [(2, Obj 4)] s) /\ wd desk s = 123.
Proof. eexists. split; [exists 40; vm_compute; reflexivity|reflexivity]. Qed.

(** (dolist (x '(3 2 1) 7) (say x)), (dotimes (x 3 x) (say x)), and an error in the forms *)
Example C81_example_dolist : exists s, block_nil desk (dolist_spec desk 2 (num 103) (num 7) [say 2] [] d0) (Normal (Obj 7) [] s) /\ wd desk s = 321.
Proof. eexists. split; [apply (C81_dolist_partial desk 51 50); try reflexivity; try discriminate; exists 40; vm_compute; reflexivity|reflexivity]. Qed.
Example C81_example_dotimes : exists s, block_nil desk (dotimes_spec desk Obj 2 (num 3) (Var 2) [say 2] [] d0) (Normal (Obj 3) [] s) /\ wd desk s = 12.
Proof.
  eexists. split; [apply (C81_dotimes_partial desk Obj 1 2 2 50 [say 2] desk_counts); try reflexivity; try discriminate|].
  - intros v e1 s1 (n & E). destruct n; [discriminate|]. inversion E. exists 3. reflexivity.
  - exists 40. vm_compute. reflexivity.
  - reflexivity.
Qed.
Example C81_example_error : ends desk (m_dolist 50 51 2 (num 103) (num 7) [say 2; Call 5 []]) [] d0 Err.
Proof. exists 40. vm_compute. reflexivity. Qed.

(** ** Where the manual is wrong: (dolist (x '(3 2 1) 7) (return x)) is 7 and not 3, (dotimes (x 3 7) (return x)) is 7 and not 0 *)
Theorem C81_dolist_refuted : exists L g2 g x l result forms e s v v' e1 s1,
  special L g = false /\ special L g2 = false /\ g2 <> g /\ x <> g /\ forallb (unmentioned g) forms = true /\ unmentioned g result = true /\
  ends L (m_dolist g g2 x l result forms) e s (Normal v e1 s1) /\ v <> v' /\
  block_nil L (dolist_spec L x l result forms e s) (Normal v' e1 s1).
Proof.
  exists desk, 51, 50, 2, (num 103), (num 7), [ReturnFrom 0 (Var 2)], [], d0, (Obj 7), (Obj 3), [], d0.
  repeat split; try discriminate.
  - exists 40. vm_compute. reflexivity.
  - exists (Exit 0 (Obj 3) [] d0). split; [|reflexivity].
    exists (Normal (Obj 103) [] d0). split; [exists 1; reflexivity|].
    exists (Exit 0 (Obj 3) [(2, Obj 3)] d0). split; [|reflexivity].
    exists (Exit 0 (Obj 3) [(2, Obj 3)] d0). split; [|reflexivity].
    apply each_exit; [discriminate|reflexivity| |exact I]. exists 9. vm_compute. reflexivity.
Qed.
Print Assumptions C81_dolist_refuted.

Theorem C81_dotimes_refuted : exists L num less add1 g x count result forms e s v v' e1 s1,
  counts L num less add1 /\ special L g = false /\ special L x = false /\ x <> g /\ forallb (unmentioned g) forms = true /\ unmentioned g result = true /\
  forallb (no_setq x) forms = true /\
  ends L (m_dotimes (num 0) less add1 g x count result forms) e s (Normal v e1 s1) /\ v <> v' /\
  block_nil L (dotimes_spec L num x count result forms e s) (Normal v' e1 s1).
Proof.
  exists desk, Obj, 1, 2, 50, 2, (num 3), (num 7), [ReturnFrom 0 (Var 2)], [], d0, (Obj 7), (Obj 0), [], d0.
  split; [exact desk_counts|]. repeat split; try discriminate.
  - exists 40. vm_compute. reflexivity.
  - exists (Exit 0 (Obj 0) [] d0). split; [|reflexivity].
    exists (Normal (Obj 3) [] d0). split; [exists 1; reflexivity|]. exists 3. split; [reflexivity|].
    exists (Exit 0 (Obj 0) [] d0). split; [|reflexivity].
    apply times_exit; [apply Nat.lt_0_succ| |exact I].
    exists (Exit 0 (Obj 0) [(2, Obj 0)] d0). split; [|reflexivity]. exists 9. vm_compute. reflexivity.
Qed.
Print Assumptions C81_dotimes_refuted.
