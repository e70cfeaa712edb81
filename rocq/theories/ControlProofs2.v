(** The standard meaning and the coded one agree on tame programs; what the machine does from the start. *)
From Verif Require Import ControlModel ControlSpec ControlProofs.

Definition clean (w : word) : Prop := w <> zero_flonum.
Definition clean_state (s : state) : Prop := forall x, clean (fst s x).
Definition clean_out (o : outcome) : Prop :=
  match o with RVal v | RThrow _ v _ | RReturn _ v _ => clean v | RErr => True end.

Lemma delivered_clean v : clean v -> delivered v = v.
Proof. unfold clean, delivered. intros H. destruct (Z.eqb_spec v zero_flonum); [contradiction|reflexivity]. Qed.
Lemma clean_assign x v s : clean_state s -> clean v -> clean_state (assign x v s).
Proof. intros H V y. cbn [assign fst]. unfold upd. destruct (y =? x); [exact V|apply H]. Qed.

(** restore, pointwise *)
Lemma restore_in D pend : forall s x, (forall y o, In (y, o) pend -> D y = true) -> D x = false ->
  fst (restore pend s) x = fst s x.
Proof.
  induction pend as [|[y o] r IH]; intros s x H Dx; [reflexivity|]. cbn [restore].
  rewrite IH; [|intros z o' Hz; apply (H z o'); right; exact Hz|exact Dx]. cbn [assign fst]. apply upd_other.
  intros E. subst. rewrite (H y o) in Dx; [discriminate|left; reflexivity].
Qed.
Lemma restore_ext pend : forall s t x, fst s x = fst t x -> fst (restore pend s) x = fst (restore pend t) x.
Proof.
  induction pend as [|[y o] r IH]; intros s t x E; [exact E|]. cbn [restore]. apply IH. cbn [assign fst]. unfold upd.
  destruct (x =? y); [reflexivity|exact E].
Qed.

Section Agree.
Variables (P : nat -> exp) (D Q : nat -> bool).
Hypothesis TP : tame_program D Q P.

Definition eqv (s t : state) : Prop := snd s = snd t /\ forall x, fst s x = fst t x.
Definition eqv_off (s t : state) : Prop := snd s = snd t /\ forall x, D x = false -> fst s x = fst t x.
Definition same_on (s t : state) : Prop := forall x, D x = true -> fst s x = fst t x.

(** Quiet code: the same in both meanings, whatever the variables in D hold. *)
Definition plain (o : outcome) : Prop := match o with RThrow _ _ p | RReturn _ _ p => p = [] | _ => True end.

Lemma quiet_run T L e s o s' : standard P T L e s o s' -> quiet D Q e = true -> tame D Q e = true ->
  (forall x, D x = false -> clean (fst s x)) ->
  plain o /\ clean_out o /\ same_on s' s /\ (forall x, D x = false -> clean (fst s' x)) /\
  forall t, eqv_off t s -> exists t', as_coded P T L e t o t' /\ eqv_off t' s' /\ same_on t' t.
Proof.
  destruct TP as [TP1 TP2].
  unfold standard, as_coded. induction 1 as
    [T L w s|T L k s|T L x s|T L x e s v s1 _ IH|T L x e s o s1 _ IH N
    |T L a b s v s1 o s2 _ IH1 _ IH2|T L a b s o s1 _ IH N
    |T L c a b s v s1 o s2 _ IH1 _ IH2|T L c a b s o s1 _ IH N
    |T L x e b s v s1 o s2 _ IH1 _ IH2|T L x e b s o s1 _ IH N
    |T L tag b s t s1 o s2 _ IH1 _ IH2|T L tag b s o s1 _ IH N
    |T L tag e s t s1 v s2 k _ IH1 _ IH2 Ix|T L tag e s t s1 v s2 _ IH1 _ IH2 Ix
    |T L tag e s o s1 _ IH N|T L tag e s t s1 o s2 _ IH1 _ IH2 N
    |T L n b s o s1 _ IH
    |T L n e s v s1 Hin _ IH|T L n e s Hn|T L n e s o s1 Hin _ IH N
    |T L c b s s1 _ IH|T L c b s v s1 w s2 o s3 _ IH1 Nv _ IH2 _ IH3|T L c b s o s1 _ IH N
    |T L c b s v s1 o s2 _ IH1 Nv _ IH2 N
    |T L e c s v s1 w s2 _ IH1 _ IH2|T L e c s v s1 o s2 _ IH1 _ IH2 N
    |T L e c s o s1 w s2 _ IH1 Lv _ IH2|T L e c s k v pend s1 k2 v2 pend2 s2 _ IH1 _ IH2|T L e c s k v pend s1 s2 _ IH1 _ IH2
    |T L e c s s1 _ IH|T L g s o s1 _ IH];
    intros Hq Ht Hc; cbn [quiet tame] in Hq, Ht;
    repeat match goal with H : _ && _ = true |- _ => apply andb_true_iff in H; destruct H end; try discriminate.
  - split; [exact Logic.I|]. split. { cbn. intros E. subst w. discriminate. }
    split; [intros x _; reflexivity|]. split; [exact Hc|]. intros t Et. exists t. split; [constructor|]. split; [exact Et|intros x _; reflexivity].
  - split; [exact Logic.I|]. split; [cbn; discriminate|]. split; [intros x _; reflexivity|]. split; [exact Hc|].
    intros t [E1 E2]. exists (fst t, snd t ++ [k]). split; [constructor|]. split; [|intros x _; reflexivity].
    split; [cbn [snd]; rewrite E1; reflexivity|exact E2].
  - apply negb_true_iff in Hq. split; [exact Logic.I|]. split; [apply Hc; exact Hq|]. split; [intros y _; reflexivity|]. split; [exact Hc|].
    intros t Et. exists t. split; [|split; [exact Et|intros y _; reflexivity]]. destruct Et as [_ E2]. rewrite <- (E2 x Hq). constructor.
  - destruct (IH ltac:(assumption) Ht Hc) as (Pl & Co & So & Cs & R). apply negb_true_iff in H.
    split; [exact Logic.I|]. split; [exact Co|]. split.
    { intros y Dy. cbn [assign fst]. rewrite upd_other by (intros E; subst; congruence). apply So. exact Dy. }
    split. { intros y Dy. cbn [assign fst]. unfold upd. destruct (y =? x); [exact Co|apply Cs; exact Dy]. }
    intros t Et. destruct (R t Et) as (t' & Ev & [A1 A2] & A3). exists (assign x v t'). split; [constructor; exact Ev|]. split.
    { split; [exact A1|]. intros y Dy. cbn [assign fst]. unfold upd. destruct (y =? x); [reflexivity|apply A2; exact Dy]. }
    intros y Dy. cbn [assign fst]. rewrite upd_other by (intros E; subst; congruence). apply A3. exact Dy.
  - destruct (IH ltac:(assumption) Ht Hc) as (Pl & Co & So & Cs & R). repeat (split; [assumption|]).
    intros t Et. destruct (R t Et) as (t' & Ev & A). exists t'. split; [apply ev_set_x; assumption|exact A].
  - destruct (IH1 ltac:(assumption) ltac:(assumption) Hc) as (Pl & Co & So & Cs & R).
    destruct (IH2 ltac:(assumption) ltac:(assumption) Cs) as (Pl2 & Co2 & So2 & Cs2 & R2).
    split; [exact Pl2|]. split; [exact Co2|]. split; [intros y Dy; rewrite So2, So by exact Dy; reflexivity|]. split; [exact Cs2|].
    intros t Et. destruct (R t Et) as (t1 & Ev & A & A3). destruct (R2 t1 A) as (t2 & Ev2 & B2 & B3). exists t2.
    split; [eapply ev_progn; eassumption|]. split; [exact B2|]. intros y Dy. rewrite B3, A3 by exact Dy. reflexivity.
  - destruct (IH ltac:(assumption) ltac:(assumption) Hc) as (Pl & Co & So & Cs & R). repeat (split; [assumption|]).
    intros t Et. destruct (R t Et) as (t' & Ev & A). exists t'. split; [apply ev_progn_x; assumption|exact A].
  - destruct (IH1 ltac:(assumption) ltac:(assumption) Hc) as (Pl & Co & So & Cs & R).
    assert (Hq2 : quiet D Q (if Z.eqb v NILw then b else a) = true) by (destruct (Z.eqb v NILw); assumption).
    assert (Ht2 : tame D Q (if Z.eqb v NILw then b else a) = true) by (destruct (Z.eqb v NILw); assumption).
    destruct (IH2 Hq2 Ht2 Cs) as (Pl2 & Co2 & So2 & Cs2 & R2).
    split; [exact Pl2|]. split; [exact Co2|]. split; [intros y Dy; rewrite So2, So by exact Dy; reflexivity|]. split; [exact Cs2|].
    intros t Et. destruct (R t Et) as (t1 & Ev & A & A3). destruct (R2 t1 A) as (t2 & Ev2 & B2 & B3). exists t2.
    split; [eapply ev_if; eassumption|]. split; [exact B2|]. intros y Dy. rewrite B3, A3 by exact Dy. reflexivity.
  - destruct (IH ltac:(assumption) ltac:(assumption) Hc) as (Pl & Co & So & Cs & R). repeat (split; [assumption|]).
    intros t Et. destruct (R t Et) as (t' & Ev & A). exists t'. split; [apply ev_if_x; assumption|exact A].
  - (* catch *) destruct (IH1 ltac:(assumption) ltac:(assumption) Hc) as (Pl & Co & So & Cs & R).
    destruct (IH2 ltac:(assumption) ltac:(assumption) Cs) as (Pl2 & Co2 & So2 & Cs2 & R2).
    assert (Es : snd (catch_exit (fun v => v) o s2) = s2).
    { destruct o as [w|[|k] w p|n w p|]; cbn [catch_exit snd]; try reflexivity. cbn [plain] in Pl2. subst p. reflexivity. }
    assert (Eo : fst (catch_exit delivered o s2) = fst (catch_exit (fun v => v) o s2)).
    { destruct o as [w|[|k] w p|n w p|]; cbn [catch_exit fst]; try reflexivity. rewrite delivered_clean; [reflexivity|exact Co2]. }
    rewrite Es. split; [destruct o as [w|[|k] w p|n w p|]; cbn [catch_exit fst plain] in *; auto|].
    split; [destruct o as [w|[|k] w p|n w p|]; cbn [catch_exit fst clean_out] in *; auto|].
    split; [intros y Dy; rewrite So2, So by exact Dy; reflexivity|]. split; [exact Cs2|].
    intros u Et. destruct (R u Et) as (t1 & Ev & A & A3). destruct (R2 t1 A) as (t2 & Ev2 & B2 & B3). exists t2.
    pose proof (ev_catch P true delivered T L tag b u t t1 o t2 Ev Ev2) as X.
    assert (Es2 : snd (catch_exit delivered o t2) = t2).
    { destruct o as [w|[|k] w p|n w p|]; cbn [catch_exit snd]; try reflexivity. cbn [plain] in Pl2. subst p. reflexivity. }
    assert (Eo2 : fst (catch_exit delivered o t2) = fst (catch_exit delivered o s2)) by (destruct o as [w|[|k] w p|n w p|]; reflexivity).
    rewrite Es2, Eo2, Eo in X. split; [exact X|]. split; [exact B2|]. intros y Dy. rewrite B3, A3 by exact Dy. reflexivity.
  - destruct (IH ltac:(assumption) ltac:(assumption) Hc) as (Pl & Co & So & Cs & R). repeat (split; [assumption|]).
    intros t Et. destruct (R t Et) as (t' & Ev & A). exists t'. split; [apply ev_catch_x; assumption|exact A].
  - destruct (IH1 ltac:(assumption) ltac:(assumption) Hc) as (Pl & Co & So & Cs & R).
    destruct (IH2 ltac:(assumption) ltac:(assumption) Cs) as (Pl2 & Co2 & So2 & Cs2 & R2).
    split; [reflexivity|]. split; [exact Co2|]. split; [intros y Dy; rewrite So2, So by exact Dy; reflexivity|]. split; [exact Cs2|].
    intros u Et. destruct (R u Et) as (t1 & Ev & A & A3). destruct (R2 t1 A) as (t2 & Ev2 & B2 & B3). exists t2.
    split; [eapply ev_throw; eassumption|]. split; [exact B2|]. intros y Dy. rewrite B3, A3 by exact Dy. reflexivity.
  - destruct (IH1 ltac:(assumption) ltac:(assumption) Hc) as (Pl & Co & So & Cs & R).
    destruct (IH2 ltac:(assumption) ltac:(assumption) Cs) as (Pl2 & Co2 & So2 & Cs2 & R2).
    split; [exact Logic.I|]. split; [exact Logic.I|]. split; [intros y Dy; rewrite So2, So by exact Dy; reflexivity|]. split; [exact Cs2|].
    intros u Et. destruct (R u Et) as (t1 & Ev & A & A3). destruct (R2 t1 A) as (t2 & Ev2 & B2 & B3). exists t2.
    split; [eapply ev_throw_none; eassumption|]. split; [exact B2|]. intros y Dy. rewrite B3, A3 by exact Dy. reflexivity.
  - destruct (IH ltac:(assumption) ltac:(assumption) Hc) as (Pl & Co & So & Cs & R). repeat (split; [assumption|]).
    intros t Et. destruct (R t Et) as (t' & Ev & A). exists t'. split; [apply ev_throw_x1; assumption|exact A].
  - destruct (IH1 ltac:(assumption) ltac:(assumption) Hc) as (Pl & Co & So & Cs & R).
    destruct (IH2 ltac:(assumption) ltac:(assumption) Cs) as (Pl2 & Co2 & So2 & Cs2 & R2).
    split; [exact Pl2|]. split; [exact Co2|]. split; [intros y Dy; rewrite So2, So by exact Dy; reflexivity|]. split; [exact Cs2|].
    intros u Et. destruct (R u Et) as (t1 & Ev & A & A3). destruct (R2 t1 A) as (t2 & Ev2 & B2 & B3). exists t2.
    split; [eapply ev_throw_x2; eassumption|]. split; [exact B2|]. intros y Dy. rewrite B3, A3 by exact Dy. reflexivity.
  - (* block *) destruct (IH Hq Ht Hc) as (Pl & Co & So & Cs & R).
    assert (Es : forall u, snd (block_exit (fun v => v) n o u) = u /\ snd (block_exit delivered n o u) = u).
    { intros u. destruct o as [w|k w p|m w p|]; cbn [block_exit snd]; auto. cbn [plain] in Pl. subst p. destruct (m =? n); auto. }
    assert (Eo : forall u u', fst (block_exit delivered n o u) = fst (block_exit (fun v => v) n o u')).
    { intros u u'. destruct o as [w|k w p|m w p|]; cbn [block_exit fst]; try reflexivity. destruct (m =? n); [|reflexivity].
      cbn [fst]. rewrite delivered_clean; [reflexivity|exact Co]. }
    rewrite (proj1 (Es s1)). split.
    { destruct o as [w|k w p|m w p|]; cbn [block_exit fst plain] in *; auto. destruct (m =? n); cbn [fst plain clean_out]; auto. }
    split. { destruct o as [w|k w p|m w p|]; cbn [block_exit fst clean_out] in *; auto. destruct (m =? n); cbn [fst plain clean_out]; auto. }
    split; [exact So|]. split; [exact Cs|]. intros t Et. destruct (R t Et) as (t' & Ev & A). exists t'. split; [|exact A].
    pose proof (ev_block P true delivered T L n b t o t' Ev) as X. rewrite (proj2 (Es t')), (Eo t' s1) in X. exact X.
  - destruct (IH Hq Ht Hc) as (Pl & Co & So & Cs & R). split; [reflexivity|]. repeat (split; [assumption|]).
    intros t Et. destruct (R t Et) as (t' & Ev & A). exists t'. split; [apply ev_return; assumption|exact A].
  - split; [exact Logic.I|]. split; [exact Logic.I|]. split; [intros y _; reflexivity|]. split; [exact Hc|].
    intros t Et. exists t. split; [apply ev_return_none; assumption|]. split; [exact Et|intros y _; reflexivity].
  - destruct (IH Hq Ht Hc) as (Pl & Co & So & Cs & R). repeat (split; [assumption|]).
    intros t Et. destruct (R t Et) as (t' & Ev & A). exists t'. split; [apply ev_return_x; assumption|exact A].
  - destruct (IH ltac:(assumption) ltac:(assumption) Hc) as (Pl & Co & So & Cs & R). split; [exact Logic.I|]. repeat (split; [assumption|]).
    intros t Et. destruct (R t Et) as (t' & Ev & A). exists t'. split; [apply ev_loop_end; assumption|exact A].
  - destruct (IH1 ltac:(assumption) ltac:(assumption) Hc) as (Pl & Co & So & Cs & R).
    destruct (IH2 ltac:(assumption) ltac:(assumption) Cs) as (Pl2 & Co2 & So2 & Cs2 & R2).
    destruct (IH3 ltac:(cbn [quiet]; apply andb_true_iff; auto) ltac:(cbn [tame]; apply andb_true_iff; auto) Cs2) as (Pl3 & Co3 & So3 & Cs3 & R3).
    split; [exact Pl3|]. split; [exact Co3|]. split; [intros y Dy; rewrite So3, So2, So by exact Dy; reflexivity|]. split; [exact Cs3|].
    intros u Et. destruct (R u Et) as (t1 & Ev & A & A3). destruct (R2 t1 A) as (t2 & Ev2 & B2 & B3).
    destruct (R3 t2 B2) as (t3 & Ev3 & C2 & C3). exists t3.
    split; [eapply ev_loop; eassumption|]. split; [exact C2|]. intros y Dy. rewrite C3, B3, A3 by exact Dy. reflexivity.
  - destruct (IH ltac:(assumption) ltac:(assumption) Hc) as (Pl & Co & So & Cs & R). repeat (split; [assumption|]).
    intros t Et. destruct (R t Et) as (t' & Ev & A). exists t'. split; [apply ev_loop_x1; assumption|exact A].
  - destruct (IH1 ltac:(assumption) ltac:(assumption) Hc) as (Pl & Co & So & Cs & R).
    destruct (IH2 ltac:(assumption) ltac:(assumption) Cs) as (Pl2 & Co2 & So2 & Cs2 & R2).
    split; [exact Pl2|]. split; [exact Co2|]. split; [intros y Dy; rewrite So2, So by exact Dy; reflexivity|]. split; [exact Cs2|].
    intros u Et. destruct (R u Et) as (t1 & Ev & A & A3). destruct (R2 t1 A) as (t2 & Ev2 & B2 & B3). exists t2.
    split; [eapply ev_loop_x2; eassumption|]. split; [exact B2|]. intros y Dy. rewrite B3, A3 by exact Dy. reflexivity.
  - (* protect *) destruct (IH1 ltac:(assumption) ltac:(assumption) Hc) as (Pl & Co & So & Cs & R).
    destruct (IH2 ltac:(assumption) ltac:(assumption) Cs) as (Pl2 & Co2 & So2 & Cs2 & R2).
    split; [exact Pl|]. split; [exact Co|]. split; [intros y Dy; rewrite So2, So by exact Dy; reflexivity|]. split; [exact Cs2|].
    intros u Et. destruct (R u Et) as (t1 & Ev & A & A3). destruct (R2 t1 A) as (t2 & Ev2 & B2 & B3). exists t2.
    split; [eapply ev_protect; eassumption|]. split; [exact B2|]. intros y Dy. rewrite B3, A3 by exact Dy. reflexivity.
  - destruct (IH1 ltac:(assumption) ltac:(assumption) Hc) as (Pl & Co & So & Cs & R).
    destruct (IH2 ltac:(assumption) ltac:(assumption) Cs) as (Pl2 & Co2 & So2 & Cs2 & R2).
    split; [exact Pl2|]. split; [exact Co2|]. split; [intros y Dy; rewrite So2, So by exact Dy; reflexivity|]. split; [exact Cs2|].
    intros u Et. destruct (R u Et) as (t1 & Ev & A & A3). destruct (R2 t1 A) as (t2 & Ev2 & B2 & B3). exists t2.
    split; [eapply ev_protect_x; eassumption|]. split; [exact B2|]. intros y Dy. rewrite B3, A3 by exact Dy. reflexivity.
  - destruct (IH1 ltac:(assumption) ltac:(assumption) Hc) as (Pl & Co & So & Cs & R).
    destruct (IH2 ltac:(assumption) ltac:(assumption) Cs) as (Pl2 & Co2 & So2 & Cs2 & R2).
    split; [exact Pl|]. split; [exact Co|]. split; [intros y Dy; rewrite So2, So by exact Dy; reflexivity|]. split; [exact Cs2|].
    intros u Et. destruct (R u Et) as (t1 & Ev & A & A3). destruct (R2 t1 A) as (t2 & Ev2 & B2 & B3). exists t2.
    split; [eapply ev_protect_l; eassumption|]. split; [exact B2|]. intros y Dy. rewrite B3, A3 by exact Dy. reflexivity.
  - destruct (IH1 ltac:(assumption) ltac:(assumption) Hc) as (Pl & Co & So & Cs & R).
    destruct (IH2 ltac:(assumption) ltac:(assumption) Cs) as (Pl2 & Co2 & So2 & Cs2 & R2). cbn [plain] in Pl, Pl2. subst pend pend2.
    split; [reflexivity|]. split; [exact Co2|]. split; [intros y Dy; rewrite So2, So by exact Dy; reflexivity|]. split; [exact Cs2|].
    intros u Et. destruct (R u Et) as (t1 & Ev & A & A3). destruct (R2 t1 A) as (t2 & Ev2 & B2 & B3). exists t2.
    split; [eapply ev_protect_t; eassumption|]. split; [exact B2|]. intros y Dy. rewrite B3, A3 by exact Dy. reflexivity.
  - destruct (IH1 ltac:(assumption) ltac:(assumption) Hc) as (Pl & Co & So & Cs & R).
    destruct (IH2 ltac:(assumption) ltac:(assumption) Cs) as (Pl2 & Co2 & So2 & Cs2 & R2).
    split; [exact Logic.I|]. split; [exact Logic.I|]. split; [intros y Dy; rewrite So2, So by exact Dy; reflexivity|]. split; [exact Cs2|].
    intros u Et. destruct (R u Et) as (t1 & Ev & A & A3). destruct (R2 t1 A) as (t2 & Ev2 & B2 & B3). exists t2.
    split; [eapply ev_protect_r; eassumption|]. split; [exact B2|]. intros y Dy. rewrite B3, A3 by exact Dy. reflexivity.
  - destruct (IH ltac:(assumption) ltac:(assumption) Hc) as (Pl & Co & So & Cs & R). repeat (split; [assumption|]).
    intros t Et. destruct (R t Et) as (t' & Ev & A). exists t'. split; [apply ev_protect_e; assumption|exact A].
  - (* call *) destruct (IH (TP2 g Hq) (TP1 g) Hc) as (Pl & Co & So & Cs & R).
    assert (Es : forall u, snd (block_exit (fun v => v) g o u) = u /\ snd (block_exit delivered g o u) = u).
    { intros u. destruct o as [w|k w p|m w p|]; cbn [block_exit snd]; auto. cbn [plain] in Pl. subst p. destruct (m =? g); auto. }
    assert (Eo : forall u u', fst (block_exit delivered g o u) = fst (block_exit (fun v => v) g o u')).
    { intros u u'. destruct o as [w|k w p|m w p|]; cbn [block_exit fst]; try reflexivity. destruct (m =? g); [|reflexivity].
      cbn [fst]. rewrite delivered_clean; [reflexivity|exact Co]. }
    rewrite (proj1 (Es s1)). split.
    { destruct o as [w|k w p|m w p|]; cbn [block_exit fst plain] in *; auto. destruct (m =? g); cbn [fst plain clean_out]; auto. }
    split. { destruct o as [w|k w p|m w p|]; cbn [block_exit fst clean_out] in *; auto. destruct (m =? g); cbn [fst plain clean_out]; auto. }
    split; [exact So|]. split; [exact Cs|]. intros t Et. destruct (R t Et) as (t' & Ev & A). exists t'. split; [|exact A].
    pose proof (ev_call P true delivered T L g t o t' Ev) as X. rewrite (proj2 (Es t')), (Eo t' s1) in X. exact X.
Qed.

Definition inD (pend : list (nat * word)) : Prop := forall y o, In (y, o) pend -> D y = true.
(** The outcome in the coded meaning: the bindings not yet undone are variables in D, and undoing them gives the
    state of the standard meaning. *)
Definition rel (o : outcome) (s : state) (o' : outcome) (t : state) : Prop :=
  match o, o' with
  | RVal v, RVal v' => v' = v /\ eqv t s
  | RThrow k v _, RThrow k' v' p => k' = k /\ v' = v /\ inD p /\ eqv (restore p t) s
  | RReturn n v _, RReturn n' v' p => n' = n /\ v' = v /\ inD p /\ eqv (restore p t) s
  | RErr, RErr => eqv_off t s
  | _, _ => False
  end.

Lemma eqv_assign x v s t : eqv t s -> eqv (assign x v t) (assign x v s).
Proof.
  intros [A1 A2]. split; [exact A1|]. intros y. cbn [assign fst]. unfold upd. destruct (y =? x); [reflexivity|apply A2].
Qed.
Lemma eqv_eqv_off t s : eqv t s -> eqv_off t s.
Proof. intros [A1 A2]. split; [exact A1|]. intros x _. apply A2. Qed.
Lemma eqv_off_restore p t s : inD p -> eqv (restore p t) s -> eqv_off t s.
Proof.
  intros Hp [A1 A2]. split; [rewrite restore_snd in A1; exact A1|]. intros x Dx. rewrite <- A2. symmetry.
  apply (restore_in D); assumption.
Qed.
Lemma eqv_after p t1 s1 t2 s2 : inD p -> eqv (restore p t1) s1 -> eqv_off t2 s2 -> same_on t2 t1 -> same_on s2 s1 ->
  eqv (restore p t2) s2.
Proof.
  intros Hp [A1 A2] [B1 B2] C1 C2. split; [rewrite restore_snd; exact B1|]. intros x. destruct (D x) eqn:Dx.
  - rewrite (restore_ext p t2 t1 x (C1 x Dx)), A2. symmetry. apply C2. exact Dx.
  - rewrite (restore_in D p t2 x Hp Dx). apply B2. exact Dx.
Qed.

Lemma rel_no_value o s o' t : rel o s o' t -> no_value o -> no_value o'.
Proof. destruct o, o'; cbn [rel no_value]; tauto. Qed.

Lemma tame_run T L e s o s' : standard P T L e s o s' -> tame D Q e = true -> clean_state s ->
  plain o /\ clean_out o /\ clean_state s' /\
  forall t, eqv t s -> exists o' t', as_coded P T L e t o' t' /\ rel o s' o' t'.
Proof.
  pose proof TP as [TP1 TP2].
  unfold standard, as_coded. induction 1 as
    [T L w s|T L k s|T L x s|T L x e s v s1 _ IH|T L x e s o s1 _ IH N
    |T L a b s v s1 o s2 _ IH1 _ IH2|T L a b s o s1 _ IH N
    |T L c a b s v s1 o s2 _ IH1 _ IH2|T L c a b s o s1 _ IH N
    |T L x e b s v s1 o s2 _ IH1 _ IH2|T L x e b s o s1 _ IH N
    |T L tag b s t s1 o s2 _ IH1 _ IH2|T L tag b s o s1 _ IH N
    |T L tag e s t s1 v s2 k _ IH1 _ IH2 Ix|T L tag e s t s1 v s2 _ IH1 _ IH2 Ix
    |T L tag e s o s1 _ IH N|T L tag e s t s1 o s2 _ IH1 _ IH2 N
    |T L n b s o s1 _ IH
    |T L n e s v s1 Hin _ IH|T L n e s Hn|T L n e s o s1 Hin _ IH N
    |T L c b s s1 _ IH|T L c b s v s1 w s2 o s3 _ IH1 Nv _ IH2 _ IH3|T L c b s o s1 _ IH N
    |T L c b s v s1 o s2 _ IH1 Nv _ IH2 N
    |T L e c s v s1 w s2 _ IH1 _ IH2|T L e c s v s1 o s2 _ IH1 _ IH2 N
    |T L e c s o s1 w s2 _ IH1 Lv H2 _|T L e c s k v pend s1 k2 v2 pend2 s2 _ IH1 H2 _|T L e c s k v pend s1 s2 _ IH1 H2 _
    |T L e c s s1 _ IH|T L g s o s1 _ IH];
    intros Ht Hc; cbn [tame] in Ht;
    repeat match goal with H : _ && _ = true |- _ => apply andb_true_iff in H; destruct H end.
  - split; [exact Logic.I|]. split. { cbn. intros E. subst w. discriminate. }
    split; [exact Hc|]. intros t Et. exists (RVal w), t. split; [constructor|]. split; [reflexivity|exact Et].
  - split; [exact Logic.I|]. split; [cbn; discriminate|]. split; [exact Hc|].
    intros t [E1 E2]. exists (RVal NILw), (fst t, snd t ++ [k]). split; [constructor|]. split; [reflexivity|].
    split; [cbn [snd]; rewrite E1; reflexivity|exact E2].
  - split; [exact Logic.I|]. split; [apply Hc|]. split; [exact Hc|].
    intros t Et. exists (RVal (fst t x)), t. split; [constructor|]. split; [|exact Et]. destruct Et as [_ E2]. apply E2.
  - destruct (IH Ht Hc) as (Pl & Co & Cs & R). split; [exact Logic.I|]. split; [exact Co|]. split; [apply clean_assign; assumption|].
    intros t Et. destruct (R t Et) as (o' & t' & Ev & A). destruct o' as [v'| | |]; cbn [rel] in A; try contradiction.
    destruct A as [-> A]. exists (RVal v), (assign x v t'). split; [constructor; exact Ev|]. split; [reflexivity|apply eqv_assign; exact A].
  - destruct (IH Ht Hc) as (Pl & Co & Cs & R). repeat (split; [assumption|]).
    intros t Et. destruct (R t Et) as (o' & t' & Ev & A). exists o', t'. split; [|exact A].
    apply ev_set_x; [exact Ev|eapply rel_no_value; eassumption].
  - destruct (IH1 ltac:(assumption) Hc) as (Pl & Co & Cs & R). destruct (IH2 ltac:(assumption) Cs) as (Pl2 & Co2 & Cs2 & R2).
    repeat (split; [assumption|]).
    intros t Et. destruct (R t Et) as (o' & t1 & Ev & A). destruct o' as [v'| | |]; cbn [rel] in A; try contradiction.
    destruct A as [-> A]. destruct (R2 t1 A) as (o2 & t2 & Ev2 & B2). exists o2, t2. split; [eapply ev_progn; eassumption|exact B2].
  - destruct (IH ltac:(assumption) Hc) as (Pl & Co & Cs & R). repeat (split; [assumption|]).
    intros t Et. destruct (R t Et) as (o' & t' & Ev & A). exists o', t'. split; [|exact A].
    apply ev_progn_x; [exact Ev|eapply rel_no_value; eassumption].
  - destruct (IH1 ltac:(assumption) Hc) as (Pl & Co & Cs & R).
    assert (Ht2 : tame D Q (if Z.eqb v NILw then b else a) = true) by (destruct (Z.eqb v NILw); assumption).
    destruct (IH2 Ht2 Cs) as (Pl2 & Co2 & Cs2 & R2). repeat (split; [assumption|]).
    intros t Et. destruct (R t Et) as (o' & t1 & Ev & A). destruct o' as [v'| | |]; cbn [rel] in A; try contradiction.
    destruct A as [-> A]. destruct (R2 t1 A) as (o2 & t2 & Ev2 & B2). exists o2, t2. split; [eapply ev_if; eassumption|exact B2].
  - destruct (IH ltac:(assumption) Hc) as (Pl & Co & Cs & R). repeat (split; [assumption|]).
    intros t Et. destruct (R t Et) as (o' & t' & Ev & A). exists o', t'. split; [|exact A].
    apply ev_if_x; [exact Ev|eapply rel_no_value; eassumption].
  - (* let *) destruct (IH1 ltac:(assumption) Hc) as (Pl & Co & Cs & R).
    destruct (IH2 ltac:(assumption) (clean_assign x v s1 Cs Co)) as (Pl2 & Co2 & Cs2 & R2).
    split; [destruct o; cbn [let_exit fst plain] in *; auto|]. split; [destruct o; cbn [let_exit fst clean_out] in *; auto|].
    split; [destruct o; cbn [let_exit snd]; auto; apply clean_assign; auto|].
    intros t Et. destruct (R t Et) as (o' & t1 & Ev & A). destruct o' as [v'| | |]; cbn [rel] in A; try contradiction.
    destruct A as [-> A]. destruct (R2 (assign x v t1) (eqv_assign _ _ _ _ A)) as (o2 & t2 & Ev2 & B2).
    assert (Ex : fst t1 x = fst s1 x) by (destruct A as [_ A]; apply A).
    pose proof (ev_let P true delivered T L x e b t v t1 o2 t2 Ev Ev2) as X.
    exists (fst (let_exit true x (fst t1 x) o2 t2)), (snd (let_exit true x (fst t1 x) o2 t2)). split; [exact X|].
    destruct o as [w|k w p|n w p|], o2 as [w'|k' w' p'|n' w' p'|]; cbn [rel] in B2; try contradiction; cbn [let_exit fst snd rel].
    + destruct B2 as [-> B2]. split; [reflexivity|]. rewrite Ex. apply eqv_assign. exact B2.
    + destruct B2 as (-> & -> & B2 & B3). repeat (split; [reflexivity|]). split.
      * intros y o' Hy. apply in_app_or in Hy. destruct Hy as [Hy|[Hy|[]]]; [eapply B2; exact Hy|congruence].
      * rewrite restore_app, Ex. cbn [restore]. apply eqv_assign. exact B3.
    + destruct B2 as (-> & -> & B2 & B3). repeat (split; [reflexivity|]). split.
      * intros y o' Hy. apply in_app_or in Hy. destruct Hy as [Hy|[Hy|[]]]; [eapply B2; exact Hy|congruence].
      * rewrite restore_app, Ex. cbn [restore]. apply eqv_assign. exact B3.
    + exact B2.
  - destruct (IH ltac:(assumption) Hc) as (Pl & Co & Cs & R). repeat (split; [assumption|]).
    intros t Et. destruct (R t Et) as (o' & t' & Ev & A). exists o', t'. split; [|exact A].
    apply ev_let_x; [exact Ev|eapply rel_no_value; eassumption].
  - (* catch *) destruct (IH1 ltac:(assumption) Hc) as (Pl & Co & Cs & R). destruct (IH2 ltac:(assumption) Cs) as (Pl2 & Co2 & Cs2 & R2).
    split; [destruct o as [w|[|k] w p|n w p|]; cbn [catch_exit fst plain] in *; auto|].
    split; [destruct o as [w|[|k] w p|n w p|]; cbn [catch_exit fst clean_out] in *; auto|].
    split. { destruct o as [w|[|k] w p|n w p|]; cbn [catch_exit snd]; auto. cbn [plain] in Pl2. subst p. exact Cs2. }
    intros u Et. destruct (R u Et) as (o' & t1 & Ev & A). destruct o' as [v'| | |]; cbn [rel] in A; try contradiction.
    destruct A as [-> A]. destruct (R2 t1 A) as (o2 & t2 & Ev2 & B2).
    pose proof (ev_catch P true delivered T L tag b u t t1 o2 t2 Ev Ev2) as X.
    exists (fst (catch_exit delivered o2 t2)), (snd (catch_exit delivered o2 t2)). split; [exact X|].
    destruct o as [w|k w p|n w p|], o2 as [w'|k' w' p'|n' w' p'|]; cbn [rel] in B2; try contradiction.
    + exact B2.
    + destruct B2 as (-> & -> & B2 & B3). cbn [plain] in Pl2. subst p. destruct k as [|k]; cbn [catch_exit fst snd rel restore].
      * split; [apply delivered_clean; exact Co2|exact B3].
      * auto.
    + exact B2.
    + exact B2.
  - destruct (IH ltac:(assumption) Hc) as (Pl & Co & Cs & R). repeat (split; [assumption|]).
    intros t Et. destruct (R t Et) as (o' & t' & Ev & A). exists o', t'. split; [|exact A].
    apply ev_catch_x; [exact Ev|eapply rel_no_value; eassumption].
  - destruct (IH1 ltac:(assumption) Hc) as (Pl & Co & Cs & R). destruct (IH2 ltac:(assumption) Cs) as (Pl2 & Co2 & Cs2 & R2).
    split; [reflexivity|]. repeat (split; [assumption|]).
    intros u Et. destruct (R u Et) as (o' & t1 & Ev & A). destruct o' as [v'| | |]; cbn [rel] in A; try contradiction.
    destruct A as [-> A]. destruct (R2 t1 A) as (o2 & t2 & Ev2 & B2). destruct o2 as [v2| | |]; cbn [rel] in B2; try contradiction.
    destruct B2 as [-> B2]. exists (RThrow k v []), t2. split; [eapply ev_throw; eassumption|]. cbn [rel restore].
    split; [reflexivity|]. split; [reflexivity|]. split; [intros y o' []|exact B2].
  - destruct (IH1 ltac:(assumption) Hc) as (Pl & Co & Cs & R). destruct (IH2 ltac:(assumption) Cs) as (Pl2 & Co2 & Cs2 & R2).
    split; [exact Logic.I|]. split; [exact Logic.I|]. split; [assumption|].
    intros u Et. destruct (R u Et) as (o' & t1 & Ev & A). destruct o' as [v'| | |]; cbn [rel] in A; try contradiction.
    destruct A as [-> A]. destruct (R2 t1 A) as (o2 & t2 & Ev2 & B2). destruct o2 as [v2| | |]; cbn [rel] in B2; try contradiction.
    destruct B2 as [-> B2]. exists RErr, t2. split; [eapply ev_throw_none; eassumption|]. cbn [rel]. apply eqv_eqv_off. exact B2.
  - destruct (IH ltac:(assumption) Hc) as (Pl & Co & Cs & R). repeat (split; [assumption|]).
    intros t Et. destruct (R t Et) as (o' & t' & Ev & A). exists o', t'. split; [|exact A].
    apply ev_throw_x1; [exact Ev|eapply rel_no_value; eassumption].
  - destruct (IH1 ltac:(assumption) Hc) as (Pl & Co & Cs & R). destruct (IH2 ltac:(assumption) Cs) as (Pl2 & Co2 & Cs2 & R2).
    repeat (split; [assumption|]).
    intros u Et. destruct (R u Et) as (o' & t1 & Ev & A). destruct o' as [v'| | |]; cbn [rel] in A; try contradiction.
    destruct A as [-> A]. destruct (R2 t1 A) as (o2 & t2 & Ev2 & B2). exists o2, t2.
    split; [eapply ev_throw_x2; [exact Ev|exact Ev2|eapply rel_no_value; eassumption]|exact B2].
  - (* block *) destruct (IH Ht Hc) as (Pl & Co & Cs & R).
    split. { destruct o as [w|k w p|m w p|]; cbn [block_exit fst plain] in *; auto. destruct (m =? n); cbn [fst plain]; auto. }
    split. { destruct o as [w|k w p|m w p|]; cbn [block_exit fst clean_out] in *; auto. destruct (m =? n); cbn [fst clean_out]; auto. }
    split. { destruct o as [w|k w p|m w p|]; cbn [block_exit snd]; auto. cbn [plain] in Pl. subst p. destruct (m =? n); exact Cs. }
    intros t Et. destruct (R t Et) as (o' & t' & Ev & A).
    pose proof (ev_block P true delivered T L n b t o' t' Ev) as X.
    exists (fst (block_exit delivered n o' t')), (snd (block_exit delivered n o' t')). split; [exact X|].
    destruct o as [w|k w p|m w p|], o' as [w'|k' w' p'|n' w' p'|]; cbn [rel] in A; try contradiction; try exact A.
    destruct A as (-> & -> & A1 & A2). cbn [plain] in Pl. subst p. cbn [block_exit]. destruct (m =? n); cbn [fst snd rel restore].
    + split; [apply delivered_clean; exact Co|exact A2].
    + auto.
  - destruct (IH Ht Hc) as (Pl & Co & Cs & R). split; [reflexivity|]. repeat (split; [assumption|]).
    intros t Et. destruct (R t Et) as (o' & t' & Ev & A). destruct o' as [v'| | |]; cbn [rel] in A; try contradiction.
    destruct A as [-> A]. exists (RReturn n v []), t'. split; [apply ev_return; assumption|]. cbn [rel restore].
    split; [reflexivity|]. split; [reflexivity|]. split; [intros y o' []|exact A].
  - split; [exact Logic.I|]. split; [exact Logic.I|]. split; [exact Hc|].
    intros t Et. exists RErr, t. split; [apply ev_return_none; assumption|]. cbn [rel]. apply eqv_eqv_off. exact Et.
  - destruct (IH Ht Hc) as (Pl & Co & Cs & R). repeat (split; [assumption|]).
    intros t Et. destruct (R t Et) as (o' & t' & Ev & A). exists o', t'. split; [|exact A].
    apply ev_return_x; [exact Hin|exact Ev|eapply rel_no_value; eassumption].
  - destruct (IH ltac:(assumption) Hc) as (Pl & Co & Cs & R). split; [exact Logic.I|]. repeat (split; [assumption|]).
    intros t Et. destruct (R t Et) as (o' & t' & Ev & A). destruct o' as [v'| | |]; cbn [rel] in A; try contradiction.
    destruct A as [-> A]. exists (RVal NILw), t'. split; [apply ev_loop_end; assumption|]. split; [reflexivity|exact A].
  - destruct (IH1 ltac:(assumption) Hc) as (Pl & Co & Cs & R). destruct (IH2 ltac:(assumption) Cs) as (Pl2 & Co2 & Cs2 & R2).
    destruct (IH3 ltac:(cbn [tame]; apply andb_true_iff; auto) Cs2) as (Pl3 & Co3 & Cs3 & R3). repeat (split; [assumption|]).
    intros u Et. destruct (R u Et) as (o' & t1 & Ev & A). destruct o' as [v'| | |]; cbn [rel] in A; try contradiction.
    destruct A as [-> A]. destruct (R2 t1 A) as (o2 & t2 & Ev2 & B2). destruct o2 as [v2| | |]; cbn [rel] in B2; try contradiction.
    destruct B2 as [-> B2]. destruct (R3 t2 B2) as (o3 & t3 & Ev3 & C3). exists o3, t3. split; [eapply ev_loop; eassumption|exact C3].
  - destruct (IH ltac:(assumption) Hc) as (Pl & Co & Cs & R). repeat (split; [assumption|]).
    intros t Et. destruct (R t Et) as (o' & t' & Ev & A). exists o', t'. split; [|exact A].
    apply ev_loop_x1; [exact Ev|eapply rel_no_value; eassumption].
  - destruct (IH1 ltac:(assumption) Hc) as (Pl & Co & Cs & R). destruct (IH2 ltac:(assumption) Cs) as (Pl2 & Co2 & Cs2 & R2).
    repeat (split; [assumption|]).
    intros u Et. destruct (R u Et) as (o' & t1 & Ev & A). destruct o' as [v'| | |]; cbn [rel] in A; try contradiction.
    destruct A as [-> A]. destruct (R2 t1 A) as (o2 & t2 & Ev2 & B2). exists o2, t2.
    split; [eapply ev_loop_x2; [exact Ev|exact Nv|exact Ev2|eapply rel_no_value; eassumption]|exact B2].
  - (* protect *) destruct (IH1 ltac:(assumption) Hc) as (Pl & Co & Cs & R). destruct (IH2 ltac:(assumption) Cs) as (Pl2 & Co2 & Cs2 & R2).
    repeat (split; [assumption|]).
    intros u Et. destruct (R u Et) as (o' & t1 & Ev & A). destruct o' as [v'| | |]; cbn [rel] in A; try contradiction.
    destruct A as [-> A]. destruct (R2 t1 A) as (o2 & t2 & Ev2 & B2). destruct o2 as [v2| | |]; cbn [rel] in B2; try contradiction.
    destruct B2 as [-> B2]. exists (RVal v), t2. split; [eapply ev_protect; eassumption|]. split; [reflexivity|exact B2].
  - destruct (IH1 ltac:(assumption) Hc) as (Pl & Co & Cs & R). destruct (IH2 ltac:(assumption) Cs) as (Pl2 & Co2 & Cs2 & R2).
    repeat (split; [assumption|]).
    intros u Et. destruct (R u Et) as (o' & t1 & Ev & A). destruct o' as [v'| | |]; cbn [rel] in A; try contradiction.
    destruct A as [-> A]. destruct (R2 t1 A) as (o2 & t2 & Ev2 & B2). exists o2, t2.
    split; [eapply ev_protect_x; [exact Ev|exact Ev2|eapply rel_no_value; eassumption]|exact B2].
  - (* protect, left *) destruct (IH1 ltac:(assumption) Hc) as (Pl & Co & Cs & R).
    destruct (quiet_run _ _ _ _ _ _ H2 ltac:(assumption) ltac:(assumption) (fun x _ => Cs x)) as (_ & _ & So & Co2 & R2).
    split; [exact Pl|]. split; [exact Co|]. split.
    { intros x. destruct (D x) eqn:Dx; [rewrite So by exact Dx; apply Cs|apply Co2; exact Dx]. }
    intros u Et. destruct (R u Et) as (o' & t1 & Ev & A).
    destruct o as [w'|k w' p|n w' p|], o' as [w''|k' w'' p'|n' w'' p'|]; cbn [rel leaves] in A, Lv; try contradiction.
    + destruct A as (-> & -> & A1 & A2). destruct (R2 t1 (eqv_off_restore p' t1 s1 A1 A2)) as (t2 & Ev2 & B2 & B3).
      exists (RThrow k w' p'), t2. split; [eapply ev_protect_l; [exact Ev|exact Logic.I|exact Ev2]|].
      cbn [rel]. repeat (split; [first [reflexivity|assumption]|]). eapply eqv_after; eassumption.
    + destruct A as (-> & -> & A1 & A2). destruct (R2 t1 (eqv_off_restore p' t1 s1 A1 A2)) as (t2 & Ev2 & B2 & B3).
      exists (RReturn n w' p'), t2. split; [eapply ev_protect_l; [exact Ev|exact Logic.I|exact Ev2]|].
      cbn [rel]. repeat (split; [first [reflexivity|assumption]|]). eapply eqv_after; eassumption.
  - destruct (IH1 ltac:(assumption) Hc) as (Pl & Co & Cs & R).
    destruct (quiet_run _ _ _ _ _ _ H2 ltac:(assumption) ltac:(assumption) (fun x _ => Cs x)) as (Pl2 & Cq & So & Co2 & R2).
    cbn [plain] in Pl, Pl2. subst pend pend2. split; [reflexivity|]. split; [exact Cq|]. split.
    { intros x. destruct (D x) eqn:Dx; [rewrite So by exact Dx; apply Cs|apply Co2; exact Dx]. }
    intros u Et. destruct (R u Et) as (o' & t1 & Ev & A). destruct o' as [|k' w'' p'| |]; cbn [rel] in A; try contradiction.
    destruct A as (-> & -> & A1 & A2). destruct (R2 t1 (eqv_off_restore p' t1 s1 A1 A2)) as (t2 & Ev2 & B2 & B3).
    exists (RThrow (k + k2) v2 ([] ++ p')), t2. split; [eapply ev_protect_t; eassumption|].
    cbn [rel app]. repeat (split; [first [reflexivity|assumption]|]). eapply eqv_after; eassumption.
  - destruct (IH1 ltac:(assumption) Hc) as (Pl & Co & Cs & R).
    destruct (quiet_run _ _ _ _ _ _ H2 ltac:(assumption) ltac:(assumption) (fun x _ => Cs x)) as (Pl2 & Cq & So & Co2 & R2).
    split; [exact Logic.I|]. split; [exact Logic.I|]. split.
    { intros x. destruct (D x) eqn:Dx; [rewrite So by exact Dx; apply Cs|apply Co2; exact Dx]. }
    intros u Et. destruct (R u Et) as (o' & t1 & Ev & A). destruct o' as [|k' w'' p'| |]; cbn [rel] in A; try contradiction.
    destruct A as (-> & -> & A1 & A2). destruct (R2 t1 (eqv_off_restore p' t1 s1 A1 A2)) as (t2 & Ev2 & B2 & B3).
    exists RErr, t2. split; [eapply ev_protect_r; eassumption|]. exact B2.
  - destruct (IH ltac:(assumption) Hc) as (Pl & Co & Cs & R). repeat (split; [assumption|]).
    intros t Et. destruct (R t Et) as (o' & t' & Ev & A). destruct o' as [| | |]; cbn [rel] in A; try contradiction.
    exists RErr, t'. split; [apply ev_protect_e; assumption|exact A].
  - (* call *) destruct (IH (TP1 g) Hc) as (Pl & Co & Cs & R).
    split. { destruct o as [w|k w p|m w p|]; cbn [block_exit fst plain] in *; auto. destruct (m =? g); cbn [fst plain]; auto. }
    split. { destruct o as [w|k w p|m w p|]; cbn [block_exit fst clean_out] in *; auto. destruct (m =? g); cbn [fst clean_out]; auto. }
    split. { destruct o as [w|k w p|m w p|]; cbn [block_exit snd]; auto. cbn [plain] in Pl. subst p. destruct (m =? g); exact Cs. }
    intros t Et. destruct (R t Et) as (o' & t' & Ev & A).
    pose proof (ev_call P true delivered T L g t o' t' Ev) as X.
    exists (fst (block_exit delivered g o' t')), (snd (block_exit delivered g o' t')). split; [exact X|].
    destruct o as [w|k w p|m w p|], o' as [w'|k' w' p'|n' w' p'|]; cbn [rel] in A; try contradiction; try exact A.
    destruct A as (-> & -> & A1 & A2). cbn [plain] in Pl. subst p. cbn [block_exit]. destruct (m =? g); cbn [fst snd rel restore].
    + split; [apply delivered_clean; exact Co|exact A2].
    + auto.
Qed.
End Agree.
