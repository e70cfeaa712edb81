(** C35 special bindings, C36 unwind-protect, C37 throw and return-from.

    [standard] (ControlSpec.v) is the usual meaning of the forms; [as_coded] differs from it in two points: on a
    throw or return-from special bindings are undone only on arrival, after the cleanup forms, and the flonum 0.0
    arrives as the integer 0.  Both say nothing about a cleanup form that is left by a return-from while control is
    already leaving, or by a throw while a return-from is leaving. *)
From Verif Require Import ControlModel ControlSpec ControlProofs ControlProofs2 ControlProofs3 ControlFuel.

(** ** C37 *)
(** A form read at the top level computes the value, the variables and the effects of the standard meaning, and
    ends in an error where that has no target.  Not covered: cleanup forms using variables the program binds, and
    0.0. *)
Theorem C37_agrees_partial P D Q e base sp o s' : 1 <= base -> tame_program D Q P -> tame D Q e = true ->
  (forall x, sp x <> zero_flonum) -> standard P [] [] e (sp, []) o s' ->
  match o with
  | RVal v => exists z, computes P e base sp (MVal v z) /\ (forall x, spec z x = fst s' x) /\ out z = snd s' /\ vsp z = base
  | RErr => exists z, computes P e base sp (MErr z) /\ out z = snd s'
  | _ => False
  end.
Proof. exact (start_tame P D Q e base sp o s'). Qed.
Print Assumptions C37_agrees_partial.

(** For every program: what is computed is the coded meaning. *)
Theorem C37_coded_partial P e base sp o s' : 1 <= base -> as_coded P [] [] e (sp, []) o s' ->
  match o with
  | RVal v => exists z, computes P e base sp (MVal v z) /\ (spec z, out z) = s' /\ vsp z = base
  | RErr => exists z, computes P e base sp (MErr z) /\ (spec z, out z) = s'
  | _ => False
  end.
Proof.
  intros Hb H. destruct o as [v|k v p|n v p|].
  - exact (start_value P e base sp v s' Hb H).
  - exact (start_stays P e base sp _ _ Hb H Logic.I).
  - exact (start_stays P e base sp _ _ Hb H Logic.I).
  - exact (start_error P e base sp s' Hb H).
Qed.
Print Assumptions C37_coded_partial.

(** The target of a throw is the innermost catch with that tag. *)
Theorem C37_innermost t T k : index t T = Some k <-> nth_error T k = Some t /\ ~ In t (firstn k T).
Proof.
  revert k. induction T as [|u T IH]; intros k; cbn [index].
  - split; [discriminate|]. intros [H _]. destruct k; discriminate.
  - destruct (Z.eqb_spec u t) as [->|N].
    + split; [intros E; inversion E; subst; split; [reflexivity|intros []]|].
      intros [_ H]. destruct k as [|k]; [reflexivity|]. exfalso. apply H. left. reflexivity.
    + split.
      * destruct (index t T) as [j|]; cbn [option_map]; [|discriminate]. intros E. inversion E; subst k.
        destruct (proj1 (IH j) eq_refl) as [A B]. split; [exact A|]. cbn [firstn]. intros [X|X]; [contradiction|exact (B X)].
      * intros [A B]. destruct k as [|k]; [cbn in A; congruence|]. cbn [nth_error firstn] in A, B.
        rewrite (proj2 (IH k)); [reflexivity|]. split; [exact A|]. intros X. apply B. right. exact X.
Qed.
Print Assumptions C37_innermost.

(** (catch t (catch u (progn (emit 0) (unwind-protect (let ((x 6)) (emit 2) (throw t x)) (emit 1))))) *)
Definition no_functions (g : nat) : exp := Const NILw.
Definition sp0 (x : nat) : word := NILw.
Definition tagt := Const (int_word 70).
Definition tagu := Const (int_word 71).
Definition ex_body : exp :=
  Progn (Emit 0) (Protect (Let 5 (Const (int_word 6)) (Progn (Emit 2) (Throw tagt (Get 5)))) (Emit 1)).
Definition ex_form : exp := Catch tagt (Catch tagu ex_body).
Definition D5 (x : nat) : bool := x =? 5.
Definition noQ (g : nat) : bool := false.

Example C37_standard_ex : exists s', standard no_functions [] [] ex_form (sp0, []) (RVal (int_word 6)) s' /\ snd s' = [0; 2; 1].
Proof.
  eexists. split.
  - unfold ex_form, standard.
    refine (ev_catch _ _ _ [] [] tagt _ _ (int_word 70) _ (RThrow 0 (int_word 6) []) _ _ _); [apply ev_const|].
    refine (ev_catch _ _ _ _ [] tagu _ _ (int_word 71) _ (RThrow 1 (int_word 6) []) _ _ _); [apply ev_const|].
    eapply ev_progn; [apply ev_emit|].
    eapply ev_protect_l; [|exact Logic.I|apply ev_emit].
    refine (ev_let _ _ _ _ [] 5 _ _ _ (int_word 6) _ (RThrow 1 (int_word 6) []) _ _ _); [apply ev_const|].
    eapply ev_progn; [apply ev_emit|]. eapply ev_throw; [apply ev_const|apply ev_get|reflexivity].
  - reflexivity.
Qed.
Example C37_agrees_ex : 1 <= 100 /\ tame_program D5 noQ no_functions /\ tame D5 noQ ex_form = true /\
  (forall x, sp0 x <> zero_flonum) /\
  exists z, eval no_functions 12 ex_form (start 100 sp0) = MVal (int_word 6) z /\ spec z 5 = NILw /\ out z = [0; 2; 1].
Proof.
  split; [lia|]. split; [split; [reflexivity|discriminate]|]. split; [reflexivity|]. split; [discriminate|].
  eexists. split; [vm_compute; reflexivity|]. split; reflexivity.
Qed.

(** (catch t (throw t 0.0)) yields 0; the same with block and return-from. *)
Theorem C37_zero_refuted : exists e s', standard no_functions [] [] e (sp0, []) (RVal zero_flonum) s' /\
  exists z, computes no_functions e 1 sp0 (MVal (int_word 0) z).
Proof.
  exists (Catch tagt (Throw tagt (Const zero_flonum))), (sp0, []). split.
  - refine (ev_catch _ _ (fun v => v) [] [] tagt _ _ (int_word 70) _ (RThrow 0 zero_flonum []) _ _ _); [apply ev_const|].
    eapply ev_throw; [apply ev_const|apply ev_const|reflexivity].
  - eexists. apply (computes_run no_functions 5); [vm_compute; reflexivity|discriminate].
Qed.
Print Assumptions C37_zero_refuted.
Theorem C37_zero_return_refuted : exists e s', standard no_functions [] [] e (sp0, []) (RVal zero_flonum) s' /\
  exists z, computes no_functions e 1 sp0 (MVal (int_word 0) z).
Proof.
  exists (Block 3 (ReturnFrom 3 (Const zero_flonum))), (sp0, []). split.
  - refine (ev_block _ _ (fun v => v) [] [] 3 _ _ (RReturn 3 zero_flonum []) _ _).
    apply ev_return; [left; reflexivity|apply ev_const].
  - eexists. apply (computes_run no_functions 5); [vm_compute; reflexivity|discriminate].
Qed.
Print Assumptions C37_zero_return_refuted.

(** A return-from in a cleanup form finds its block when the protected form ends normally, but not when the cleanup
    form runs because of a throw: (block b (catch t (unwind-protect E (return-from b 2)))). *)
Theorem C37_cleanup_return_refuted : exists e1 e2 : exp,
  let form e := Block 3 (Catch tagt (Protect e (ReturnFrom 3 (Const (int_word 2))))) in
  (exists z, computes no_functions (form e1) 1 sp0 (MVal (int_word 2) z)) /\
  (exists z, computes no_functions (form e2) 1 sp0 (MErr z)).
Proof.
  exists (Const NILw), (Throw tagt (Const NILw)). split; eexists; (apply (computes_run no_functions 9); [vm_compute; reflexivity|discriminate]).
Qed.
Print Assumptions C37_cleanup_return_refuted.

(** ** C35 *)
(** Every variable has at the end of the form the value of the standard meaning. *)
Theorem C35_variables_partial P D Q e base sp v s' : 1 <= base -> tame_program D Q P -> tame D Q e = true ->
  (forall x, sp x <> zero_flonum) -> standard P [] [] e (sp, []) (RVal v) s' ->
  exists z, computes P e base sp (MVal v z) /\ forall x, spec z x = fst s' x.
Proof.
  intros Hb TP Ht Hc H. destruct (C37_agrees_partial P D Q e base sp _ s' Hb TP Ht Hc H) as (z & C & S & _). exists z. auto.
Qed.
Print Assumptions C35_variables_partial.

(** For every program, cleanup forms included: a variable that is assigned only under its own bindings has its old
    value at the end. *)
Theorem C35_restored_partial P x A e base sp v s' : 1 <= base ->
  (forall g, A g = true -> leaves_alone x A (P g) = true) -> leaves_alone x A e = true ->
  as_coded P [] [] e (sp, []) (RVal v) s' ->
  exists z, computes P e base sp (MVal v z) /\ spec z x = sp x.
Proof.
  intros Hb HA Hl H. destruct (start_value P e base sp v s' Hb H) as (z & C & St & _). exists z. split; [exact C|].
  destruct (alone_run P x A HA [] [] e (sp, []) (RVal v) s' H Hl ltac:(discriminate)) as [G _]. subst s'. exact G.
Qed.
Print Assumptions C35_restored_partial.

(** (catch t (let ((x 1)) (setq x 2) (let ((x 3)) (unwind-protect (throw t 9) (setq x 4))))): x is restored. *)
Definition ex35 : exp := Catch tagt (Let 5 (Const (int_word 1)) (Progn (SetQ 5 (Const (int_word 2)))
  (Let 5 (Const (int_word 3)) (Protect (Throw tagt (Const (int_word 9))) (SetQ 5 (Const (int_word 4))))))).
Example C35_restored_ex : leaves_alone 5 noQ ex35 = true /\
  (exists s', as_coded no_functions [] [] ex35 (sp0, []) (RVal (int_word 9)) s') /\
  exists z, eval no_functions 12 ex35 (start 1 sp0) = MVal (int_word 9) z /\ spec z 5 = sp0 5.
Proof.
  split; [reflexivity|]. split.
  - eexists. unfold ex35, as_coded.
    refine (ev_catch _ _ delivered [] [] tagt _ _ (int_word 70) _
      (RThrow 0 (int_word 9) [(5, int_word 2); (5, NILw)]) _ _ _); [apply ev_const|].
    refine (ev_let _ true delivered _ [] 5 _ _ _ (int_word 1) (sp0, []) (RThrow 0 (int_word 9) [(5, int_word 2)]) _ _ _); [apply ev_const|].
    eapply ev_progn; [eapply ev_set; apply ev_const|].
    refine (ev_let _ true delivered _ [] 5 _ _ _ (int_word 3)
      (assign 5 (int_word 2) (assign 5 (int_word 1) (sp0, []))) (RThrow 0 (int_word 9) []) _ _ _); [apply ev_const|].
    eapply ev_protect_l; [eapply ev_throw; [apply ev_const|apply ev_const|reflexivity]|exact Logic.I|eapply ev_set; apply ev_const].
  - eexists. split; [vm_compute; reflexivity|reflexivity].
Qed.

(** While a cleanup form runs the bindings made inside the protected form are still there:
    (catch t (unwind-protect (let ((x 1)) (throw t 9)) (if x (emit 1) (emit 2)))) *)
Theorem C35_cleanup_refuted : exists e v s', standard no_functions [] [] e (sp0, []) (RVal v) s' /\ snd s' = [2] /\
  exists z, computes no_functions e 1 sp0 (MVal v z) /\ out z = [1].
Proof.
  exists (Catch tagt (Protect (Let 5 (Const (int_word 1)) (Throw tagt (Const (int_word 9)))) (If (Get 5) (Emit 1) (Emit 2)))).
  exists (int_word 9). eexists. split; [|split; [|eexists; split]].
  - refine (ev_catch _ _ (fun v => v) [] [] tagt _ _ (int_word 70) _ (RThrow 0 (int_word 9) []) _ _ _); [apply ev_const|].
    eapply ev_protect_l; [|exact Logic.I|].
    + refine (ev_let _ false (fun v => v) _ [] 5 _ _ _ (int_word 1) _ (RThrow 0 (int_word 9) []) _ _ _); [apply ev_const|].
      eapply ev_throw; [apply ev_const|apply ev_const|reflexivity].
    + eapply ev_if; [apply ev_get|apply ev_emit].
  - reflexivity.
  - apply (computes_run no_functions 9); [vm_compute; reflexivity|discriminate].
  - reflexivity.
Qed.
Print Assumptions C35_cleanup_refuted.

(** ** C36 *)
(** Whatever route control takes, entries of protected forms and their cleanups nest like brackets: every entry is
    followed by exactly one cleanup, the innermost first. *)
Theorem C36_brackets_partial P e base sp v s' : 1 <= base -> (forall g, bracketed (P g)) -> bracketed e ->
  as_coded P [] [] e (sp, []) (RVal v) s' ->
  exists z, computes P e base sp (MVal v z) /\ balanced (out z).
Proof.
  intros Hb HP He H. destruct (start_value P e base sp v s' Hb H) as (z & C & St & _). exists z. split; [exact C|].
  destruct (proj1 (balanced_run P HP [] [] e (sp, []) (RVal v) s' H) He ltac:(discriminate)) as (w & E & B).
  subst s'. cbn [snd app] in E. rewrite E. exact B.
Qed.
Print Assumptions C36_brackets_partial.
(** [balanced] does say that: the marks of one kind pair up. *)
Lemma balanced_count w : balanced w -> forall i, count_occ Nat.eq_dec w (3 * i) = count_occ Nat.eq_dec w (3 * i + 1).
Proof.
  induction 1 as [|j|u w _ IH1 _ IH2|j w _ IH]; intros i.
  - reflexivity.
  - cbn [count_occ]. destruct (Nat.eq_dec (3 * j + 2) (3 * i)); [lia|]. destruct (Nat.eq_dec (3 * j + 2) (3 * i + 1)); [lia|reflexivity].
  - rewrite !count_occ_app, IH1, IH2. reflexivity.
  - cbn [count_occ]. rewrite !count_occ_app, IH. cbn [count_occ].
    destruct (Nat.eq_dec (3 * j) (3 * i)), (Nat.eq_dec (3 * j + 1) (3 * i)), (Nat.eq_dec (3 * j) (3 * i + 1)), (Nat.eq_dec (3 * j + 1) (3 * i + 1)); lia.
Qed.
Theorem C36_once_partial P e base sp v s' : 1 <= base -> (forall g, bracketed (P g)) -> bracketed e ->
  as_coded P [] [] e (sp, []) (RVal v) s' ->
  exists z, computes P e base sp (MVal v z) /\
    forall i, count_occ Nat.eq_dec (out z) (3 * i) = count_occ Nat.eq_dec (out z) (3 * i + 1).
Proof.
  intros Hb HP He H. destruct (C36_brackets_partial P e base sp v s' Hb HP He H) as (z & C & B). exists z. split; [exact C|].
  exact (balanced_count _ B).
Qed.
Print Assumptions C36_once_partial.

(** The form of C37_standard_ex is bracketed; its effects are 0 2 1. *)
Example C36_brackets_ex : bracketed ex_form /\ balanced [0; 2; 1].
Proof.
  split.
  - apply br_catch; [apply br_const|]. apply br_catch; [apply br_const|]. apply (br_marked 0).
    apply br_let; [apply br_const|]. apply br_progn; [apply (br_emit 0)|]. apply br_throw; [apply br_const|apply br_get].
  - apply (bal_wrap 0 [2]). apply (bal_other 0).
Qed.

(** A cleanup form can run twice for one entry.  The return-from leaves catchfp alone while it runs the cleanup
    form, so a throw there goes back into the protected form, which then ends normally:
    (block b (unwind-protect (catch t (return-from b 1)) (emit 7) (if x (progn (setq x nil) (throw t 2))))) *)
Theorem C36_twice_refuted : exists e sp v z, computes no_functions e 1 sp (MVal v z) /\ out z = [6; 7; 7] /\
  e = Block 3 (Progn (Emit 6) (Protect (Catch tagt (ReturnFrom 3 (Const (int_word 1))))
                  (Progn (Emit 7) (If (Get 5) (Progn (SetQ 5 (Const NILw)) (Throw tagt (Const (int_word 2)))) (Const NILw))))).
Proof.
  eexists. exists (fun _ => int_word 1). eexists. eexists. split; [|split; [|reflexivity]].
  - apply (computes_run no_functions 16); [vm_compute; reflexivity|discriminate].
  - reflexivity.
Qed.
Print Assumptions C36_twice_refuted.
