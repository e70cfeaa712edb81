(** The invariant of synch-memory-port: the token. *)
From Verif Require Import PortModel LockProofs.
Import Mem.

(** where the one token is *)
Inductive token := TIn | TOut | TThread (t : nat).
Definition crit (p : pc) : bool := match p with RGet | RPost _ | WSet _ | WPost => true | _ => false end.
Definition inv (s : st) : Prop := exists k,
  (forall t, crit (pcs s t) = true -> k = TThread t) /\
  match k with
  | TIn => sin s = 1 /\ sout s = 0 /\ accepted s = returned s ++ [buf s]
  | TOut => sin s = 0 /\ sout s = 1 /\ accepted s = returned s
  | TThread t => sin s = 0 /\ sout s = 0 /\
      match pcs s t with
      | RGet | WPost => accepted s = returned s ++ [buf s]
      | RPost v => accepted s = returned s /\ last (returned s) 0 = v /\ returned s <> []
      | WSet _ => accepted s = returned s
      | _ => False
      end
  end.

Lemma inv_init : inv init.
Proof. exists TOut. split; [discriminate|]. repeat split. Qed.

Lemma crit_upd_other (f : nat -> pc) t a k : crit a = false -> (forall u, crit (f u) = true -> k = TThread u) ->
  forall u, crit (upd f t a u) = true -> k = TThread u.
Proof.
  intros Ha H u Hu. destruct (Nat.eq_dec u t) as [->|N]; [rewrite upd_eq in Hu; congruence|]. rewrite upd_neq in Hu by exact N. apply H. exact Hu.
Qed.
Lemma inv_step s s' : inv s -> step s s' -> inv s'.
Proof.
  intros (k & U & M) H. destruct H as [t s P|t s P L|t s P|t v s P|t v s P|t v s P L|t v s P|t s P].
  - exists k. split; [apply crit_upd_other; [reflexivity|exact U]|]. destruct k as [| |u]; cbn [sin sout buf pcs accepted returned]; [exact M|exact M|].
    rewrite upd_neq; [exact M|]. intros ->. rewrite P in M. tauto.
  - destruct k as [| |u]; [|lia|lia]. exists (TThread t). split.
    + cbn [pcs]. intros u Hu. destruct (Nat.eq_dec u t) as [->|N]; [reflexivity|]. rewrite upd_neq in Hu by exact N. discriminate (U u Hu).
    + cbn [sin sout buf pcs accepted returned]. rewrite upd_eq. destruct M as (E & O & X). split; [lia|]. split; [exact O|exact X].
  - pose proof (U t ltac:(rewrite P; reflexivity)) as ->. cbn in M. rewrite P in M. destruct M as (E & O & X).
    exists (TThread t). split.
    + cbn [pcs]. intros u Hu. destruct (Nat.eq_dec u t) as [->|N]; [reflexivity|]. rewrite upd_neq in Hu by exact N. exact (U u Hu).
    + cbn [sin sout buf pcs accepted returned]. rewrite upd_eq. split; [exact E|]. split; [exact O|].
      split; [exact X|]. split; [apply last_last|]. destruct (returned s); discriminate.
  - pose proof (U t ltac:(rewrite P; reflexivity)) as ->. cbn in M. rewrite P in M. destruct M as (E & O & X & _).
    exists TOut. split.
    + cbn [pcs]. intros u Hu. destruct (Nat.eq_dec u t) as [->|N]; [rewrite upd_eq in Hu; discriminate|]. rewrite upd_neq in Hu by exact N.
      pose proof (U u Hu). congruence.
    + cbn [sin sout buf pcs accepted returned]. split; [exact E|]. split; [lia|exact X].
  - exists k. split; [apply crit_upd_other; [reflexivity|exact U]|]. destruct k as [| |u]; cbn [sin sout buf pcs accepted returned]; [exact M|exact M|].
    rewrite upd_neq; [exact M|]. intros ->. rewrite P in M. tauto.
  - destruct k as [| |u]; [lia| |lia]. exists (TThread t). split.
    + cbn [pcs]. intros u Hu. destruct (Nat.eq_dec u t) as [->|N]; [reflexivity|]. rewrite upd_neq in Hu by exact N. discriminate (U u Hu).
    + cbn [sin sout buf pcs accepted returned]. rewrite upd_eq. destruct M as (E & O & X). split; [exact E|]. split; [lia|exact X].
  - pose proof (U t ltac:(rewrite P; reflexivity)) as ->. cbn in M. rewrite P in M. destruct M as (E & O & X).
    exists (TThread t). split.
    + cbn [pcs]. intros u Hu. destruct (Nat.eq_dec u t) as [->|N]; [reflexivity|]. rewrite upd_neq in Hu by exact N. exact (U u Hu).
    + cbn [sin sout buf pcs accepted returned]. rewrite upd_eq. split; [exact E|]. split; [exact O|]. rewrite X. reflexivity.
  - pose proof (U t ltac:(rewrite P; reflexivity)) as ->. cbn in M. rewrite P in M. destruct M as (E & O & X).
    exists TIn. split.
    + cbn [pcs]. intros u Hu. destruct (Nat.eq_dec u t) as [->|N]; [rewrite upd_eq in Hu; discriminate|]. rewrite upd_neq in Hu by exact N.
      pose proof (U u Hu). congruence.
    + cbn [sin sout buf pcs accepted returned]. split; [lia|]. split; [exact O|exact X].
Qed.
Theorem inv_reachable s : reachable s -> inv s.
Proof. intros H. induction H as [|s s' _ IH St]; [exact inv_init|exact (inv_step s s' IH St)]. Qed.

(** accepted = returned, or one value is still in the port *)
Theorem in_order s : reachable s -> accepted s = returned s \/ exists v, accepted s = returned s ++ [v].
Proof.
  intros H. destruct (inv_reachable s H) as (k & _ & M). destruct k as [| |t].
  - destruct M as (_ & _ & X). right. exists (buf s). exact X.
  - left. tauto.
  - destruct M as (_ & _ & X). destruct (pcs s t); try contradiction; try (right; exists (buf s); exact X); left; tauto.
Qed.
Theorem quiet s : reachable s -> (forall t, crit (pcs s t) = false) -> sin s = 0 -> accepted s = returned s.
Proof.
  intros H Q Z0. destruct (inv_reachable s H) as (k & _ & M). destruct k as [| |t]; [lia|tauto|].
  destruct M as (_ & _ & X). specialize (Q t). destruct (pcs s t); try contradiction; discriminate.
Qed.
(** the value a :read is about to return is the one it fetched, the last of [returned] *)
Theorem returns s t v : reachable s -> pcs s t = RPost v -> last (returned s) 0 = v /\ returned s <> [].
Proof.
  intros H P. destruct (inv_reachable s H) as (k & U & M). pose proof (U t ltac:(rewrite P; reflexivity)) as ->.
  cbn in M. rewrite P in M. tauto.
Qed.
(** a waiting :read goes on or some thread inside does, when a value is in the port; likewise for :write *)
Theorem goes_on s t : reachable s -> (pcs s t = RWait /\ accepted s <> returned s) \/ (exists v, pcs s t = WWait v /\ accepted s = returned s) ->
  exists u s', step s s' /\ pcs s' u <> pcs s u /\ pcs s u <> Idle.
Proof.
  intros H W. destruct (inv_reachable s H) as (k & U & M). destruct k as [| |u].
  - destruct M as (E & O & X). destruct W as [[P _]|(w & _ & Y)].
    + exists t. eexists. split; [apply (s_rwait t s P); lia|]. cbn [pcs]. rewrite upd_eq, P. split; discriminate.
    + exfalso. rewrite Y in X. apply (f_equal (@length nat)) in X. rewrite app_length in X. cbn in X. lia.
  - destruct M as (E & O & X). destruct W as [[_ N]|(w & P & _)]; [contradiction|].
    exists t. eexists. split; [apply (s_wwait t w s P); lia|]. cbn [pcs]. rewrite upd_eq, P. split; discriminate.
  - destruct M as (_ & _ & X). destruct (pcs s u) eqn:P; try contradiction.
    + exists u. eexists. split; [exact (s_rget u s P)|]. cbn [pcs]. rewrite upd_eq, P. split; discriminate.
    + exists u. eexists. split; [exact (s_rpost u v s P)|]. cbn [pcs]. rewrite upd_eq, P. split; discriminate.
    + exists u. eexists. split; [exact (s_wset u v s P)|]. cbn [pcs]. rewrite upd_eq, P. split; discriminate.
    + exists u. eexists. split; [exact (s_wpost u s P)|]. cbn [pcs]. rewrite upd_eq, P. split; discriminate.
Qed.
