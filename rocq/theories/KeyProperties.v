(** C38: parameters and arguments, keyword arguments above all.

    [sources] (KeySpec.v) is the standard meaning: every parameter has a source, its argument or its default form,
    and the parameters are bound from left to right; [accepted] says which argument lists fit.  The evaluator is any
    function that sees the variables through their values. *)
From Coq Require FinFun.
From Verif Require Import KeyModel KeySpec KeyProofs KeyProofs2 KeyProofs3.

Section C38.
  Context {F St : Type}.
  Variable ev : F -> (nat -> option val) -> St -> option (val * St).
  Variable kwof : nat -> nat.
  Variable constant : nat -> bool.
  Variable outer : nat -> option val.
  Hypothesis ev_ext : forall f r r' s, (forall x, r x = r' x) -> ev f r s = ev f r' s.

  (** The interpreter binds as the standard says and refuses what the standard refuses.  Not covered:
      :allow-other-keys among the arguments, defaults that use later keyword parameters, too many arguments with
      &aux and neither &rest nor &key. *)
  Theorem C38_binds_partial (L : lambda F) args s : well_formed kwof constant L ->
    ~ In K_ALLOW (keywords (after_opt L args)) -> no_look_ahead ev (opt_list (keys L)) ->
    (aux L = [] \/ keys L <> None \/ rst L <> None \/ length args <= length (req L) + length (opt L)) ->
    (accepted kwof L args ->
      match run ev (sources kwof L args) outer s with
      | Some (r, s') => exists e, funlambda ev kwof constant outer (write L) args s = Bound e s' /\
          forall x, lookup outer e x = r x
      | None => funlambda ev kwof constant outer (write L) args s = Err E_EVAL
      end) /\
    (~ accepted kwof L args -> exists er, funlambda ev kwof constant outer (write L) args s = Err er /\
      (er = E_MISMATCHARG \/ er = E_KEYPARAM \/
       exists k, er = E_NOKEYPARAM k /\ In k (keywords (after_opt L args)) /\ known kwof L k = false)).
  Proof.
    intros W NA LA NX. pose proof (coded_ok ev kwof constant outer ev_ext L args s W) as C.
    pose proof (accepted_iff kwof L args NA NX) as Acc. split; intros A.
    - apply Acc in A. rewrite A in C.
      assert (N : NoDup (map ivar (opt_list (keys L)))).
      { destruct W as (N & _). unfold variables in N. do 3 apply NoDup_parts in N as (_ & N & _). apply NoDup_parts in N. tauto. }
      exact (outcome_same outer _ _ _ (same_sym _ _ (sources_same ev kwof outer ev_ext L args s N LA)) C).
    - destruct (refusal_coded kwof L args) as [er|] eqn:R; [|tauto]. exists er. split; [exact C|].
      revert R. unfold refusal_coded. destruct (length args <? length (req L)); [intros R; inversion R; auto|].
      destruct (keys L) as [l|].
      + intros R. clear - R. destruct er as [| |k| | | | | |]; auto; try (right; right; exists k; split; [reflexivity|exact (first_bad_names kwof L _ _ _ R)]);
          exfalso; revert R; generalize (aokeys L); induction (after_opt L args) as [|a|a v m IH] using pair_ind; intros b R;
          try discriminate; try (destruct a; discriminate); destruct a; try discriminate; cbn [first_bad] in R;
          destruct (_ || _); try discriminate; exact (IH _ R).
      + destruct (rst L), (aux L), (after_opt L args); intros R; inversion R; auto.
  Qed.

  (** For every fitting call, also with :allow-other-keys and defaults of any kind: a keyword parameter has the value
      of the leftmost argument with its keyword. *)
  Lemma run_keeps l : forall r s r' (s' : St) x, ~ In x (map fst l) -> run ev l r s = Some (r', s') -> r' x = r x.
  Proof using.
    induction l as [|[y o] l IH]; intros r s r' s' x N R; cbn [run map fst In] in *.
    - inversion R; subst; reflexivity.
    - assert (K : forall v s1, run ev l (upd r y v) s1 = Some (r', s') -> r' x = r x).
      { intros v s1 E. rewrite (IH _ _ _ _ x (fun H => N (or_intror H)) E). unfold upd.
        destruct (Nat.eqb_spec x y) as [Exy|Exy]; [exfalso; apply N; left; auto|reflexivity]. }
      destruct o as [v|[f|]]; [exact (K v s R)| |exact (K VNil s R)].
      destruct (ev f r s) as [[v s1]|]; [exact (K v s1 R)|discriminate].
  Qed.
  Theorem C38_leftmost (L : lambda F) args s e s' p v : well_formed kwof constant L ->
    funlambda ev kwof constant outer (write L) args s = Bound e s' ->
    In p (opt_list (keys L)) -> first_value (ikey kwof p) (after_opt L args) = Some v ->
    lookup outer e (ivar p) = Some v.
  Proof.
    intros W B Hp Fv. pose proof (coded_ok ev kwof constant outer ev_ext L args s W) as C.
    destruct (refusal_coded kwof L args) as [er|]; [congruence|].
    unfold sources_coded in C. rewrite run_app in C.
    destruct (run ev (before_keys L args) outer s) as [[r0 s0]|]; [|cbn in C; congruence]. rewrite run_app in C.
    destruct W as (N & _). unfold variables in N. do 3 apply NoDup_parts in N as (_ & N & _).
    destruct (NoDup_parts _ _ N) as (N1 & N2 & N3).
    set (more := after_opt L args) in *. set (ks := opt_list (keys L)) in *.
    assert (Ng : NoDup (map fst (filter (@given F) (map (key_source kwof more) ks)))).
    { apply NoDup_map_filter. rewrite map_map. cbn [key_source fst]. exact N1. }
    destruct (run_givens ev (filter (@given F) (map (key_source kwof more) ks)) r0 s0 (forallb_filter _ _) Ng) as (r1 & R1 & B1 & B2).
    rewrite R1 in C.
    destruct (run ev _ r1 s0) as [[r2 s2]|] eqn:R2; [|cbn in C; congruence].
    destruct C as (e' & E & A). rewrite B in E. inversion E; subst e' s2. rewrite (A (ivar p)).
    assert (Gv : In (ivar p, Given v) (filter (@given F) (map (key_source kwof more) ks))).
    { apply filter_In. split; [|reflexivity]. apply in_map_iff. exists p. split; [|exact Hp]. unfold key_source. rewrite Fv. reflexivity. }
    rewrite (run_keeps _ _ _ _ _ (ivar p)) with (2 := R2); [exact (B1 _ _ Gv)|].
    rewrite map_app. intros H. apply in_app_or in H. destruct H as [H|H].
    - rewrite filter_default_map in H. unfold defaults in H. rewrite map_map in H. cbn [fst] in H.
      apply in_map_iff in H. destruct H as (q & Eq & Hq). apply filter_In in Hq. destruct Hq as [Hq Sq].
      assert (q = p).
      { apply In_nth_error in Hq. destruct Hq as (j & Nj). apply In_nth_error in Hp. destruct Hp as (i & Ni).
        assert (j = i); [|congruence].
        apply (proj1 (NoDup_nth_error (map ivar ks)) N1).
        - apply nth_error_Some. rewrite (map_nth_error _ _ _ Nj). discriminate.
        - rewrite (map_nth_error _ _ _ Nj), (map_nth_error _ _ _ Ni). congruence. }
      subst q. unfold supplied in Sq. rewrite Fv in Sq. discriminate.
    - unfold aux_sources in H. rewrite map_map in H. cbn [fst] in H. exact (N3 (ivar p) (in_map ivar ks p Hp) H).
  Qed.

  (** What the interpreter does on every well-formed lambda list and every argument list, exactly: the keyword
      parameters with an argument are bound before those without; the last :allow-other-keys so far decides. *)
  Theorem C38_coded_partial (L : lambda F) args s : well_formed kwof constant L ->
    match refusal_coded kwof L args with
    | Some er => funlambda ev kwof constant outer (write L) args s = Err er
    | None =>
        match run ev (sources_coded kwof L args) outer s with
        | Some (r, s') => exists e, funlambda ev kwof constant outer (write L) args s = Bound e s' /\
            forall x, lookup outer e x = r x
        | None => funlambda ev kwof constant outer (write L) args s = Err E_EVAL
        end
    end.
  Proof. exact (coded_ok ev kwof constant outer ev_ext L args s). Qed.

  (** Compiled functions with up to 31 keyword parameters bind them from left to right, each default seeing the
      parameters before it and no other. *)
  Theorem C38_compiled_partial (L : lambda F) args local e r s :
    NoDup (map (ikey kwof) (opt_list (keys L))) -> length (opt_list (keys L)) <= 31 ->
    ~ In K_ALLOW (keywords args) -> (forall x, lookup outer e x = r x) ->
    let c := compiled_keys ev outer (map (fun p => (ikey kwof p, ivar p, iinit p)) (opt_list (keys L))) (aokeys L) args local e s in
    (paired args = true -> aokeys L = true \/ (forall k, In k (keywords args) -> known kwof L k = true) ->
      match run ev (map (key_source kwof args) (opt_list (keys L))) r s with
      | Some (r', s') => exists e', c = CBound e' s' /\ forall x, lookup outer e' x = r' x
      | None => c = CErr E_EVAL
      end) /\
    (paired args = false -> exists er, c = CErr er) /\
    (aokeys L = false -> (exists k, In k (keywords args) /\ known kwof L k = false) -> exists er, c = CErr er).
  Proof.
    intros NK Len NA A. cbv zeta. pose proof (compiled_ok ev kwof outer ev_ext L NK Len args local e r s A) as C. cbv zeta in C.
    pose proof (first_bad_plain kwof L (aokeys L) args NA) as FB.
    assert (Od : paired args = true -> Nat.odd (length args) = false).
    { clear. induction args as [|a|a v args IH] using pair_ind; [reflexivity|destruct a; discriminate|].
      destruct a; try discriminate. cbn [paired]. intros P. exact (IH P). }
    split; [|split].
    - intros P K. rewrite (Od P) in C. rewrite (proj2 FB (conj P K)) in C. exact C.
    - intros P. destruct (Nat.odd (length args)); [eauto|].
      destruct (first_bad kwof L (aokeys L) args) as [er|]; [eauto|]. destruct (proj1 FB eq_refl) as [X _]. congruence.
    - intros Ao (k & Hk & Kn). destruct (Nat.odd (length args)); [eauto|].
      destruct (first_bad kwof L (aokeys L) args) as [er|]; [eauto|]. destruct (proj1 FB eq_refl) as [_ [X|X]]; [congruence|].
      rewrite (X k Hk) in Kn. discriminate.
  Qed.
End C38.
Print Assumptions C38_binds_partial.
Print Assumptions C38_leftmost.
Print Assumptions C38_coded_partial.
Print Assumptions C38_compiled_partial.

(** ** A small evaluator: a variable, a constant, or a constant with a count of its evaluations. *)
Inductive form := FVar (x : nat) | FConst (v : val) | FTick (v : val).
Definition evf (f : form) (r : nat -> option val) (s : nat) : option (val * nat) :=
  match f with
  | FVar x => match r x with Some v => Some (v, s) | None => None end
  | FConst v => Some (v, s)
  | FTick v => Some (v, S s)
  end.
Lemma evf_ext f r r' s : (forall x, r x = r' x) -> evf f r s = evf f r' s.
Proof. intros E. destruct f; cbn [evf]; try reflexivity. rewrite E. reflexivity. Qed.
Definition kw (x : nat) : nat := x + 100.
Definition cst (x : nat) : bool := false.
Definition out10 (x : nat) : option val := if x =? 11 then Some (VInt 77) else None.

(** (a &optional (b 2) &rest c &key (d (tick 4)) ((:k e) d) &aux (g e)) called with (1 5 :k 8 :k 9) *)
Definition exL : lambda form :=
  mkLambda [20] [IInit 21 (Some (FConst (VInt 2)))] (Some 22)
    (Some [IInit 23 (Some (FTick (VInt 4))); IKeyInit 7 24 (Some (FVar 23))]) false [IInit 25 (Some (FVar 24))].
Definition exArgs : list val := [VInt 1; VInt 5; VKey 7; VInt 8; VKey 7; VInt 9].
Example C38_ex : well_formed kw cst exL /\ ~ In K_ALLOW (keywords (after_opt exL exArgs)) /\
  no_look_ahead evf (opt_list (keys exL)) /\ accepted kw exL exArgs /\
  exists e, funlambda evf kw cst out10 (write exL) exArgs 0 = Bound e 1 /\ lookup out10 e 24 = Some (VInt 8) /\
    lookup out10 e 23 = Some (VInt 4) /\ lookup out10 e 25 = Some (VInt 8).
Proof.
  split; [|split; [|split; [|split]]].
  - unfold well_formed. split; [|split; [|split; [|split; [|split]]]].
    + cbn. repeat (apply NoDup_cons; [cbn; lia|]). apply NoDup_nil.
    + cbn. intros x H. split; [lia|reflexivity].
    + repeat constructor.
    + repeat constructor.
    + cbn. repeat (apply NoDup_cons; [cbn; lia|]). apply NoDup_nil.
    + cbn. unfold KEYWORDPARAMETERLIMIT. lia.
  - cbn. unfold K_ALLOW. lia.
  - split; [|split; [|exact Logic.I]].
    + intros r r' s _. reflexivity.
    + intros r r' s E. cbn [evf]. rewrite E; [reflexivity|intros []].
  - split; [cbn; lia|]. cbn. split; [reflexivity|]. right. intros k [<-|[<-|[]]]; left; reflexivity.
  - eexists. split; [vm_compute; reflexivity|]. split; [reflexivity|]. split; reflexivity.
Qed.
Example C38_compiled_ex : NoDup (map (ikey kw) (opt_list (keys exL))) /\ length (opt_list (keys exL)) <= 31 /\
  exists e, compiled_keys evf out10 (map (fun p => (ikey kw p, ivar p, iinit p)) (opt_list (keys exL))) (aokeys exL)
    [VKey 7; VInt 8; VKey 7; VInt 9] [] [] 0 = CBound e 1 /\ lookup out10 e 24 = Some (VInt 8).
Proof.
  split; [|split].
  - cbn. repeat (apply NoDup_cons; [cbn; lia|]). apply NoDup_nil.
  - cbn. lia.
  - eexists. split; [vm_compute; reflexivity|reflexivity].
Qed.

(** ** Where the code differs from the standard *)
Definition keyL (ks : list (@item form)) (allow : bool) : lambda form := mkLambda [] [] None (Some ks) allow [].
(** (&key a) with (:z 1 :allow-other-keys t): the standard accepts it, here :z is reported because the permission
    comes after it. *)
Theorem C38_allow_late_refuted : exists L args, well_formed kw cst L /\ accepted kw L args /\
  funlambda evf kw cst out10 (write L) args 0 = Err (E_NOKEYPARAM 9).
Proof.
  exists (keyL [ISym 20] false), [VKey 9; VInt 1; VKey K_ALLOW; VInt 1]. split; [|split; [|reflexivity]].
  - unfold well_formed. cbn. split; [|split; [|split; [|split; [|split]]]].
    + repeat (apply NoDup_cons; [cbn; lia|]). apply NoDup_nil.
    + intros x H. split; [lia|reflexivity].
    + constructor.
    + constructor.
    + repeat (apply NoDup_cons; [cbn; lia|]). apply NoDup_nil.
    + unfold KEYWORDPARAMETERLIMIT. lia.
  - split; [cbn; lia|]. cbn. split; [reflexivity|]. left. reflexivity.
Qed.
Print Assumptions C38_allow_late_refuted.
(** (&key a &allow-other-keys) with (:allow-other-keys nil :z 1): the argument takes back the permission of the
    lambda list. *)
Theorem C38_allow_nil_refuted : exists L args, well_formed kw cst L /\ accepted kw L args /\
  funlambda evf kw cst out10 (write L) args 0 = Err (E_NOKEYPARAM K_ALLOW).
Proof.
  exists (keyL [ISym 20] true), [VKey K_ALLOW; VNil; VKey 9; VInt 1]. split; [|split; [|reflexivity]].
  - unfold well_formed. cbn. split; [|split; [|split; [|split; [|split]]]].
    + repeat (apply NoDup_cons; [cbn; lia|]). apply NoDup_nil.
    + intros x H. split; [lia|reflexivity].
    + constructor.
    + constructor.
    + repeat (apply NoDup_cons; [cbn; lia|]). apply NoDup_nil.
    + unfold KEYWORDPARAMETERLIMIT. lia.
  - split; [cbn; lia|]. cbn. split; [reflexivity|]. left. reflexivity.
Qed.
Print Assumptions C38_allow_nil_refuted.
(** (&key (a b) b) with (:b 3), where b is 77 outside: a is 3 interpreted and 77 compiled. *)
Theorem C38_scope_refuted : exists L args r, well_formed kw cst L /\ accepted kw L args /\
  (exists s', run evf (sources kw L args) out10 0 = Some (r, s')) /\ r 20 = Some (VInt 77) /\
  (exists e, funlambda evf kw cst out10 (write L) args 0 = Bound e 0 /\ lookup out10 e 20 = Some (VInt 3)) /\
  (exists e, compiled_keys evf out10 (map (fun p => (ikey kw p, ivar p, iinit p)) (opt_list (keys L))) false args [] [] 0
     = CBound e 0 /\ lookup out10 e 20 = Some (VInt 77)).
Proof.
  exists (keyL [IInit 20 (Some (FVar 11)); ISym 11] false), [VKey 111; VInt 3]. eexists.
  split; [|split; [|split; [|split; [|split]]]].
  - unfold well_formed. cbn. split; [|split; [|split; [|split; [|split]]]].
    + repeat (apply NoDup_cons; [cbn; lia|]). apply NoDup_nil.
    + intros x H. split; [lia|reflexivity].
    + constructor.
    + constructor.
    + repeat (apply NoDup_cons; [cbn; lia|]). apply NoDup_nil.
    + unfold KEYWORDPARAMETERLIMIT. lia.
  - split; [cbn; lia|]. cbn. split; [reflexivity|]. right. intros k [<-|[]]. left. reflexivity.
  - eexists. reflexivity.
  - reflexivity.
  - eexists. split; reflexivity.
  - eexists. split; reflexivity.
Qed.
Print Assumptions C38_scope_refuted.
(** (a &aux b) with three arguments: the surplus is not noticed. *)
Theorem C38_aux_refuted : exists (L : lambda form) args, well_formed kw cst L /\ ~ accepted kw L args /\
  exists e, funlambda evf kw cst out10 (write L) args 0 = Bound e 0.
Proof.
  exists (mkLambda [20] [] None None false [ISym 21]), [VInt 1; VInt 2; VInt 3]. split; [|split].
  - unfold well_formed. cbn. split; [|split; [|split; [|split; [|split]]]].
    + repeat (apply NoDup_cons; [cbn; lia|]). apply NoDup_nil.
    + intros x H. split; [lia|reflexivity].
    + constructor.
    + repeat constructor.
    + apply NoDup_nil.
    + unfold KEYWORDPARAMETERLIMIT. lia.
  - intros [_ H]. cbn in H. destruct H as [H|H]; [congruence|lia].
  - eexists. reflexivity.
Qed.
Print Assumptions C38_aux_refuted.
(** A compiled function with 32 keyword parameters computes 1<<31 in type int. *)
Theorem C38_compiled_many_refuted : exists L : lambda form, length (opt_list (keys L)) < KEYWORDPARAMETERLIMIT /\
  NoDup (map (ikey kw) (opt_list (keys L))) /\
  compiled_keys evf out10 (map (fun p => (ikey kw p, ivar p, iinit p)) (opt_list (keys L))) false [] [] [] 0 = CUndef.
Proof.
  exists (keyL (map (fun n => ISym n) (seq 20 32)) false). split; [|split].
  - cbn. unfold KEYWORDPARAMETERLIMIT. lia.
  - cbn [keyL keys opt_list]. rewrite map_map. cbn [ikey]. unfold kw.
    apply FinFun.Injective_map_NoDup; [intros x y E; lia|apply seq_NoDup].
  - reflexivity.
Qed.
Print Assumptions C38_compiled_many_refuted.
