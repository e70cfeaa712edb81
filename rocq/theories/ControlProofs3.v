(** Consequences of the coded meaning: variables left alone (C35), balanced cleanups (C36), and runs from the start. *)
From Verif Require Import ControlModel ControlSpec ControlProofs ControlProofs2.

Definition pend_of (o : outcome) : list (nat * word) := match o with RThrow _ _ p | RReturn _ _ p => p | _ => [] end.

Lemma restore_same p x : forall s t, fst s x = fst t x -> fst (restore p s) x = fst (restore p t) x.
Proof. intros s t E. apply restore_ext. exact E. Qed.

Section Alone.
Variables (P : nat -> exp) (x : nat) (A : nat -> bool).
Hypothesis HA : forall g, A g = true -> leaves_alone x A (P g) = true.

Ltac splitb := repeat match goal with H : _ && _ = true |- _ => apply andb_true_iff in H; destruct H end.

Lemma pend_block dl n o s : fst (restore (pend_of (fst (block_exit dl n o s))) (snd (block_exit dl n o s))) x = fst (restore (pend_of o) s) x.
Proof. destruct o as [w|k w p|m w p|]; cbn [block_exit fst snd pend_of]; try reflexivity. destruct (m =? n); reflexivity. Qed.
Lemma err_block dl n o s : fst (block_exit dl n o s) <> RErr -> o <> RErr.
Proof. intros H E. subst o. apply H. reflexivity. Qed.

(** A cleanup form that leaves x alone changes it neither now nor after the pending bindings are undone. *)
Lemma alone_run T L e s o s' : as_coded P T L e s o s' -> leaves_alone x A e = true -> o <> RErr ->
  fst (restore (pend_of o) s') x = fst s x /\ (forall p, fst (restore p (restore (pend_of o) s')) x = fst (restore p s) x).
Proof.
  intros H Hl Ho. assert (G : fst (restore (pend_of o) s') x = fst s x); [|split; [exact G|intros p; apply restore_ext; exact G]].
  revert Hl Ho. unfold as_coded in H. induction H as
    [T L w s|T L k s|T L y s|T L y e s v s1 _ IH|T L y e s o s1 _ IH N
    |T L a b s v s1 o s2 _ IH1 _ IH2|T L a b s o s1 _ IH N
    |T L c a b s v s1 o s2 _ IH1 _ IH2|T L c a b s o s1 _ IH N
    |T L y e b s v s1 o s2 _ IH1 _ IH2|T L y e b s o s1 _ IH N
    |T L tag b s t s1 o s2 _ IH1 _ IH2|T L tag b s o s1 _ IH N
    |T L tag e s t s1 v s2 k _ IH1 _ IH2 Ix|T L tag e s t s1 v s2 _ IH1 _ IH2 Ix
    |T L tag e s o s1 _ IH N|T L tag e s t s1 o s2 _ IH1 _ IH2 N
    |T L n b s o s1 _ IH
    |T L n e s v s1 Hin _ IH|T L n e s Hn|T L n e s o s1 Hin _ IH N
    |T L c b s s1 _ IH|T L c b s v s1 w s2 o s3 _ IH1 Nv _ IH2 _ IH3|T L c b s o s1 _ IH N
    |T L c b s v s1 o s2 _ IH1 Nv _ IH2 N
    |T L e c s v s1 w s2 _ IH1 _ IH2|T L e c s v s1 o s2 _ IH1 _ IH2 N
    |T L e c s o s1 w s2 _ IH1 Lv _ IH2|T L e c s k v pend s1 k2 v2 pend2 s2 _ IH1 _ IH2|T L e c s k v pend s1 s2 _ IH1 _ IH2
    |T L e c s s1 _ IH|T L g s o s1 _ IH];
    intros Hl Ho; cbn [leaves_alone] in Hl; try (splitb; try contradiction).
  - reflexivity.
  - reflexivity.
  - reflexivity.
  - cbn [pend_of restore assign fst]. apply negb_true_iff, Nat.eqb_neq in H. rewrite upd_other by congruence.
    apply (IH ltac:(assumption)). discriminate.
  - apply IH; assumption.
  - rewrite IH2 by assumption. apply (IH1 ltac:(assumption)). discriminate.
  - apply IH; assumption.
  - rewrite IH2; [apply (IH1 ltac:(assumption)); discriminate|destruct (Z.eqb v NILw); assumption|assumption].
  - apply IH; assumption.
  - (* let *) pose proof (IH1 ltac:(assumption) ltac:(discriminate)) as E1. cbn [pend_of restore] in E1.
    assert (Oo : o <> RErr) by (intros E; subst o; apply Ho; reflexivity).
    assert (Er : fst (restore (pend_of (fst (let_exit true y (fst s1 y) o s2))) (snd (let_exit true y (fst s1 y) o s2))) x
               = fst (assign y (fst s1 y) (restore (pend_of o) s2)) x).
    { destruct o as [w|k w p|m w p|]; cbn [let_exit fst snd pend_of]; try reflexivity; [| |contradiction]; rewrite restore_app; reflexivity. }
    rewrite Er. cbn [assign fst]. unfold upd. destruct (Nat.eqb_spec x y) as [E|N].
    + subst y. exact E1.
    + destruct (Nat.eqb_spec y x); [congruence|]. rewrite IH2 by assumption. cbn [assign fst]. rewrite upd_other by assumption. exact E1.
  - apply IH; assumption.
  - (* catch *) assert (Oo : o <> RErr) by (intros E; subst o; apply Ho; reflexivity).
    assert (Er : fst (restore (pend_of (fst (catch_exit delivered o s2))) (snd (catch_exit delivered o s2))) x = fst (restore (pend_of o) s2) x)
      by (destruct o as [w|[|k] w p|m w p|]; reflexivity).
    rewrite Er, IH2 by assumption. apply (IH1 ltac:(assumption)). discriminate.
  - apply IH; assumption.
  - etransitivity; [exact (IH2 ltac:(assumption) ltac:(discriminate))|]. apply (IH1 ltac:(assumption)). discriminate.
  - apply IH; assumption.
  - rewrite IH2 by assumption. apply (IH1 ltac:(assumption)). discriminate.
  - rewrite pend_block. apply IH; [assumption|]. eapply err_block. exact Ho.
  - cbn [pend_of restore]. apply (IH Hl). discriminate.
  - apply IH; assumption.
  - apply (IH ltac:(assumption)). discriminate.
  - rewrite IH3; [|cbn [leaves_alone]; apply andb_true_iff; auto|assumption].
    etransitivity; [exact (IH2 ltac:(assumption) ltac:(discriminate))|]. apply (IH1 ltac:(assumption)). discriminate.
  - apply IH; assumption.
  - rewrite IH2 by assumption. apply (IH1 ltac:(assumption)). discriminate.
  - etransitivity; [exact (IH2 ltac:(assumption) ltac:(discriminate))|]. apply (IH1 ltac:(assumption)). discriminate.
  - rewrite IH2 by assumption. apply (IH1 ltac:(assumption)). discriminate.
  - rewrite (restore_ext (pend_of o) s2 s1 x (IH2 ltac:(assumption) ltac:(discriminate))). apply IH1; assumption.
  - cbn [pend_of] in *. rewrite restore_app. rewrite (restore_ext pend _ s1 x (IH2 ltac:(assumption) ltac:(discriminate))).
    apply (IH1 ltac:(assumption)). discriminate.
  - rewrite pend_block. apply IH; [apply HA; assumption|]. eapply err_block. exact Ho.
Qed.
End Alone.

Section Balanced.
Variable P : nat -> exp.
Hypothesis HP : forall g, bracketed (P g).

Lemma snd_block dl n o (s : state) : snd (snd (block_exit dl n o s)) = snd s.
Proof. destruct o as [w|k w p|m w p|]; cbn [block_exit snd]; try reflexivity. destruct (m =? n); [apply restore_snd|reflexivity]. Qed.
Lemma snd_catch dl o (s : state) : snd (snd (catch_exit dl o s)) = snd s.
Proof. destruct o as [w|[|k] w p|m w p|]; cbn [catch_exit snd]; try reflexivity. apply restore_snd. Qed.
Lemma snd_let late y v o (s : state) : snd (snd (let_exit late y v o s)) = snd s.
Proof. destruct o as [w|k w p|m w p|]; cbn [let_exit snd]; try reflexivity; destruct late; reflexivity. Qed.

Definition delta (s s' : state) : Prop := exists w, snd s' = snd s ++ w /\ balanced w.
Lemma delta_refl s s' : snd s' = snd s -> delta s s'.
Proof. intros E. exists []. split; [rewrite E, app_nil_r; reflexivity|constructor]. Qed.
Lemma delta_trans a b c : delta a b -> delta b c -> delta a c.
Proof.
  intros (u & E1 & B1) (w & E2 & B2). exists (u ++ w). split; [rewrite E2, E1, app_assoc; reflexivity|apply bal_app; assumption].
Qed.
Lemma delta_end a b c : delta a b -> snd c = snd b -> delta a c.
Proof. intros (u & E1 & B1) E. exists u. split; [rewrite E; exact E1|exact B1]. Qed.

(** What a protected form whose cleanup only marks does: what its body does, then the mark. *)
Lemma emit_runs T L k s o s' : as_coded P T L (Emit k) s o s' -> o = RVal NILw /\ snd s' = snd s ++ [k].
Proof. unfold as_coded. intros H. inversion H; subst. auto. Qed.

Definition bal_ok (e : exp) (s : state) (o : outcome) (s' : state) : Prop := bracketed e -> o <> RErr -> delta s s'.
(** for the marked form the claim must be made about the body of the protected form *)
Definition bal_ok2 (e : exp) (s : state) (o : outcome) (s' : state) : Prop :=
  bal_ok e s o s' /\
  (forall e1 k, e = Protect e1 (Emit k) -> bracketed e1 -> o <> RErr -> exists w, snd s' = snd s ++ w ++ [k] /\ balanced w).

Lemma balanced_run T L e s o s' : as_coded P T L e s o s' -> bal_ok2 e s o s'.
Proof.
  intros H. unfold as_coded in H. induction H as
    [T L w s|T L k s|T L y s|T L y e s v s1 _ IH|T L y e s o s1 _ IH N
    |T L a b s v s1 o s2 Ha IH1 _ IH2|T L a b s o s1 Ha IH N
    |T L c a b s v s1 o s2 _ IH1 _ IH2|T L c a b s o s1 _ IH N
    |T L y e b s v s1 o s2 _ IH1 _ IH2|T L y e b s o s1 _ IH N
    |T L tag b s t s1 o s2 _ IH1 _ IH2|T L tag b s o s1 _ IH N
    |T L tag e s t s1 v s2 k _ IH1 _ IH2 Ix|T L tag e s t s1 v s2 _ IH1 _ IH2 Ix
    |T L tag e s o s1 _ IH N|T L tag e s t s1 o s2 _ IH1 _ IH2 N
    |T L n b s o s1 _ IH
    |T L n e s v s1 Hin _ IH|T L n e s Hn|T L n e s o s1 Hin _ IH N
    |T L c b s s1 _ IH|T L c b s v s1 w s2 o s3 _ IH1 Nv _ IH2 _ IH3|T L c b s o s1 _ IH N
    |T L c b s v s1 o s2 _ IH1 Nv _ IH2 N
    |T L e c s v s1 w s2 _ IH1 Hc IH2|T L e c s v s1 o s2 _ IH1 Hc IH2 N
    |T L e c s o s1 w s2 _ IH1 Lv Hc IH2|T L e c s k v pend s1 k2 v2 pend2 s2 _ IH1 Hc IH2|T L e c s k v pend s1 s2 _ IH1 Hc IH2
    |T L e c s s1 _ IH|T L g s o s1 _ IH];
    (split; [intros Hb Ho|try (intros e1 k0 E; discriminate E)]).
  - apply delta_refl; reflexivity.
  - inversion Hb; subst. exists [3 * i + 2]. split; [reflexivity|constructor].
  - apply delta_refl; reflexivity.
  - inversion Hb; subst. eapply delta_end; [apply IH; [assumption|discriminate]|reflexivity].
  - inversion Hb; subst. apply IH; assumption.
  - (* progn *) inversion Hb; subst.
    + eapply delta_trans; [apply IH1; [assumption|discriminate]|apply IH2; assumption].
    + destruct (proj2 IH2 e (3 * i + 1) eq_refl ltac:(assumption) Ho) as (w & E & B).
      destruct (emit_runs _ _ _ _ _ _ Ha) as [_ E1]. exists (3 * i :: w ++ [3 * i + 1]).
      split; [rewrite E, E1, <- app_assoc; reflexivity|apply bal_wrap; exact B].
  - inversion Hb; subst; [apply IH; assumption|]. destruct (emit_runs _ _ _ _ _ _ Ha) as [E1 _]. subst o. destruct N.
  - inversion Hb; subst. eapply delta_trans; [apply IH1; [assumption|discriminate]|apply IH2; [destruct (Z.eqb v NILw); assumption|assumption]].
  - inversion Hb; subst. apply IH; assumption.
  - inversion Hb; subst. eapply delta_end; [|apply snd_let].
    assert (Oo : o <> RErr) by (intros E; subst o; apply Ho; reflexivity).
    eapply delta_trans; [apply IH1; [assumption|discriminate]|]. eapply delta_trans; [apply delta_refl|apply IH2; assumption]. reflexivity.
  - inversion Hb; subst. apply IH; assumption.
  - inversion Hb; subst. eapply delta_end; [|apply snd_catch].
    assert (Oo : o <> RErr) by (intros E; subst o; apply Ho; reflexivity).
    eapply delta_trans; [apply IH1; [assumption|discriminate]|apply IH2; assumption].
  - inversion Hb; subst. apply IH; assumption.
  - inversion Hb; subst. eapply delta_trans; [apply IH1; [assumption|discriminate]|apply IH2; [assumption|discriminate]].
  - contradiction.
  - inversion Hb; subst. apply IH; assumption.
  - inversion Hb; subst. eapply delta_trans; [apply IH1; [assumption|discriminate]|apply IH2; assumption].
  - inversion Hb; subst. eapply delta_end; [|apply snd_block]. apply IH; [assumption|].
    intros E; subst o; apply Ho; reflexivity.
  - inversion Hb; subst. apply IH; [assumption|discriminate].
  - contradiction.
  - inversion Hb; subst. apply IH; assumption.
  - inversion Hb; subst. apply IH; [assumption|discriminate].
  - pose proof Hb as Hb'. inversion Hb; subst. eapply delta_trans; [apply IH1; [assumption|discriminate]|].
    eapply delta_trans; [apply IH2; [assumption|discriminate]|apply IH3; assumption].
  - inversion Hb; subst. apply IH; assumption.
  - inversion Hb; subst. eapply delta_trans; [apply IH1; [assumption|discriminate]|apply IH2; assumption].
  - inversion Hb; subst. eapply delta_trans; [apply IH1; [assumption|discriminate]|apply IH2; [assumption|discriminate]].
  - intros e1 k0 E Hb Ho. inversion E; subst. destruct (proj1 IH1 Hb ltac:(discriminate)) as (u & E1 & B1).
    destruct (emit_runs _ _ _ _ _ _ Hc) as [_ E2]. exists u. split; [rewrite E2, E1, <- app_assoc; reflexivity|exact B1].
  - inversion Hb; subst. eapply delta_trans; [apply IH1; [assumption|discriminate]|apply IH2; assumption].
  - intros e1 k0 E Hb Ho. inversion E; subst. destruct (emit_runs _ _ _ _ _ _ Hc) as [E2 _]. subst o. destruct N.
  - inversion Hb; subst. eapply delta_trans; [apply IH1; assumption|apply IH2; [assumption|discriminate]].
  - intros e1 k0 E Hb Ho. inversion E; subst. destruct (proj1 IH1 Hb Ho) as (u & E1 & B1).
    destruct (emit_runs _ _ _ _ _ _ Hc) as [_ E2]. exists u. split; [rewrite E2, E1, <- app_assoc; reflexivity|exact B1].
  - inversion Hb; subst. eapply delta_trans; [apply IH1; [assumption|discriminate]|apply IH2; [assumption|discriminate]].
  - intros e1 k0 E Hb Ho. inversion E; subst. destruct (emit_runs _ _ _ _ _ _ Hc) as [E2 _]. discriminate.
  - contradiction.
  - intros e1 k0 E Hb Ho. contradiction.
  - contradiction.
  - intros e1 k0 E Hb Ho. contradiction.
  - eapply delta_end; [|apply snd_block]. apply IH; [apply HP|]. intros E; subst o; apply Ho; reflexivity.
Qed.
End Balanced.

(** ** Runs from the start *)
Lemma inv_start base sp : 1 <= base -> inv (start base sp) [].
Proof. intros H. unfold inv, start. cbn. repeat (split; [first [reflexivity|exact Logic.I|constructor]|]). exact H. Qed.

Section Start.
Variable P : nat -> exp.
Definition computes (e : exp) (base : nat) (sp : nat -> word) (r : res) : Prop :=
  exists F, forall f, F <= f -> eval P f e (start base sp) = r.

Lemma start_value e base sp v s' : 1 <= base -> as_coded P [] [] e (sp, []) (RVal v) s' ->
  exists z, computes e base sp (MVal v z) /\ (spec z, out z) = s' /\ vsp z = base.
Proof.
  intros Hb H. destruct (machine_runs P _ _ _ _ _ _ H (start base sp) [] [] [] (inv_start base sp Hb) eq_refl eq_refl eq_refl)
    as (z & Ev & _ & V & St). exists z. split; [exact Ev|split; [exact St|exact V]].
Qed.
Lemma start_error e base sp s' : 1 <= base -> as_coded P [] [] e (sp, []) RErr s' ->
  exists z, computes e base sp (MErr z) /\ (spec z, out z) = s'.
Proof.
  intros Hb H. destruct (machine_runs P _ _ _ _ _ _ H (start base sp) [] [] [] (inv_start base sp Hb) eq_refl eq_refl eq_refl eq_refl eq_refl)
    as (z & Ev & St). exists z. split; [exact Ev|exact St].
Qed.
Lemma start_stays e base sp o s' : 1 <= base -> as_coded P [] [] e (sp, []) o s' -> ~ leaves o.
Proof.
  intros Hb H Hl. pose proof (machine_runs P _ _ _ _ _ _ H (start base sp) [] [] [] (inv_start base sp Hb) eq_refl eq_refl eq_refl) as D.
  destruct o as [v|k v p|n v p|]; cbn [leaves] in Hl; try contradiction;
    destruct D as (s1 & M & l1 & q & i & l2 & E & _); destruct l1; discriminate.
Qed.

Lemma start_tame D Q e base sp o s' : 1 <= base -> tame_program D Q P -> tame D Q e = true ->
  (forall x, sp x <> zero_flonum) -> standard P [] [] e (sp, []) o s' ->
  match o with
  | RVal v => exists z, computes e base sp (MVal v z) /\ (forall x, spec z x = fst s' x) /\ out z = snd s' /\ vsp z = base
  | RErr => exists z, computes e base sp (MErr z) /\ out z = snd s'
  | _ => False
  end.
Proof.
  intros Hb TP Ht Hc H.
  destruct (tame_run P D Q TP [] [] e (sp, []) o s' H Ht Hc) as (Pl & Co & Cs & R).
  destruct (R (sp, [])) as (o' & t' & Ev & A); [split; reflexivity|].
  destruct o as [v|k v p|n v p|], o' as [v'|k' v' p'|n' v' p'|]; cbn [rel] in A; try contradiction.
  - destruct A as [-> [A1 A2]]. destruct (start_value e base sp v t' Hb Ev) as (z & C & St & V). exists z.
    subst t'. cbn [fst snd] in *. auto.
  - exact (start_stays e base sp _ _ Hb Ev Logic.I).
  - exact (start_stays e base sp _ _ Hb Ev Logic.I).
  - destruct A as [A1 A2]. destruct (start_error e base sp t' Hb Ev) as (z & C & St). exists z. subst t'. auto.
Qed.
End Start.
