(** C104: cyclic timers. *)
From Coq Require Import ZArith List Bool Lia.
From Verif Require Import CycModel CycSpec CycProofs.
Import ListNotations.
Open Scope Z_scope.

(** However the two threads interleave, and however often the timer is stopped and started, run-count is the number of intervals that have passed. *)
Theorem C104_count : forall n es, 0 < n -> run_count (exec es (itimer_init n)) = due n es.
Proof.
  intros n es Hn. assert (C : counted n 0 (itimer_init n)) by (unfold counted, itimer_init; cbn [interval run_count current]; lia).
  apply (counted_exec n es) in C; [|reflexivity]. destruct C as (_ & C2 & C3). cbn [itimer_init running] in C2. unfold due.
  apply Z.div_unique with (r := n - current (exec es (itimer_init n))); lia.
Qed.
Lemma not_deleted : forall es t, ~ In Delete es -> deleted (exec es t) = deleted t.
Proof.
  induction es as [|e es IH]; intros t N; [reflexivity|]. cbn [exec fold_left]. change (fold_left (fun t e => happen e t) es (happen e t)) with (exec es (happen e t)).
  rewrite IH by (intros H; apply N; right; exact H). destruct e; cbn [happen]; auto.
  - destruct (deleted t) eqn:D; [exact D|]. unfold tick. destruct (running t); [|exact D]. destruct (current t - 1 =? 0); exact D.
  - destruct N. left. reflexivity.
  - apply step_side.
Qed.
(** The function is never called more often than it was due, the intervals counted as missed left aside. *)
Theorem C104_calls : forall n es, 0 < n -> ~ In Delete es -> calls (exec es (itimer_init n)) + missed (exec es (itimer_init n)) <= due n es.
Proof.
  intros n es Hn N. destruct (account_exec es (itimer_init n)) as [m C]; [exists 0; unfold account, itimer_init; cbn; repeat split; lia|].
  rewrite <- (C104_count n es Hn). destruct C as (C & M & _). unfold posts in C. rewrite not_deleted in C by exact N. cbn [itimer_init deleted] in C.
  unfold busy in C. destruct (at_ (exec es (itimer_init n))); lia.
Qed.
(** Once the thread waits with nothing to do, every interval was either a call or counted as missed, if no tick came between counting and clearing. *)
Theorem C104_all_partial : forall n es, 0 < n -> ~ In Delete es -> undisturbed es (itimer_init n) ->
  let t := exec es (itimer_init n) in at_ t = AtWait -> sem t = 0 -> calls t + missed t = due n es.
Proof.
  intros n es Hn N U t A S. assert (C : exact_account t) by (apply exact_exec; [unfold exact_account, itimer_init; cbn; lia | exact U]).
  rewrite <- (C104_count n es Hn). fold t. destruct C as [C _]. unfold posts, busy in C. rewrite A, S in C. unfold t in *. rewrite not_deleted in C by exact N. cbn [itimer_init deleted] in C. lia.
Qed.
(** After it is deleted the function is called at most once more, and five steps later the thread has ended. *)
Definition woken (t : timer) : Prop := 0 <= sem t /\ (deleted t = true -> at_ t = AtWait -> 0 < sem t).
Lemma woken_happen e t : woken t -> woken (happen e t).
Proof.
  intros [P W]. destruct e; cbn [happen].
  - destruct (deleted t) eqn:D; [split; [exact P | intros _; apply W, eq_refl]|]. unfold tick. destruct (running t); [|split; [exact P | congruence]].
    destruct (current t - 1 =? 0); split; cbn [sema_post sem deleted at_]; try lia; congruence.
  - exact (conj P W).
  - exact (conj P W).
  - destruct (deleted t) eqn:D; [split; [exact P | intros _; apply W, eq_refl]|]. split; cbn [delete sema_post sem deleted at_]; lia.
  - unfold step. destruct (at_ t) eqn:A; [destruct (deleted t) eqn:D | destruct (Z.ltb_spec 0 (sem t)) | | | |]; split; cbn [go sem deleted at_]; try lia; try discriminate; try congruence; auto.
Qed.
Definition left_steps (p : place) : nat := match p with AtWait => 5 | AtCount => 4 | AtClear => 3 | AtApply => 2 | AtTest => 1 | Ended => 0 end.
Definition one_call (p : place) : Z := match p with AtTest | Ended => 0 | _ => 1 end.
Definition steps (es : list event) : nat := length (filter (fun e => match e with Step => true | _ => false end) es).
Lemma deleted_exec es : forall t, woken t -> deleted t = true ->
  calls (exec es t) + one_call (at_ (exec es t)) = calls t + one_call (at_ t) /\ (left_steps (at_ (exec es t)) <= left_steps (at_ t) - steps es)%nat.
Proof.
  induction es as [|e es IH]; intros t W D; [split; [reflexivity | cbn; lia]|]. cbn [exec fold_left]. change (fold_left (fun t e => happen e t) es (happen e t)) with (exec es (happen e t)).
  assert (K : deleted (happen e t) = true /\ calls (happen e t) + one_call (at_ (happen e t)) = calls t + one_call (at_ t) /\
    (left_steps (at_ (happen e t)) <= left_steps (at_ t) - match e with Step => 1 | _ => 0 end)%nat).
  { destruct W as [P W]. specialize (W D). destruct e; cbn [happen]; rewrite ?D; try (split; [first [exact D | reflexivity]|]; split; [reflexivity | cbn [set_running at_]; lia]).
    unfold step. destruct (at_ t) eqn:A; rewrite ?D; [ | specialize (W eq_refl); destruct (Z.ltb_spec 0 (sem t)); [|lia] | | | | ];
    cbn [go deleted calls at_ one_call left_steps]; (split; [first [exact D | reflexivity]|]); rewrite ?A; cbn [one_call left_steps]; split; lia. }
  destruct K as (K1 & K2 & K3). destruct (IH _ (woken_happen e t W) K1) as [I1 I2]. split; [lia|]. unfold steps in *. cbn [filter]. destruct e; cbn [length]; lia.
Qed.
Theorem C104_deleted_partial : forall n es es', let t := exec es (itimer_init n) in deleted t = true ->
  calls (exec es' t) <= calls t + 1 /\ ((5 <= steps es')%nat -> at_ (exec es' t) = Ended).
Proof.
  intros n es es' t D. assert (W : woken t).
  { unfold t. assert (G : forall es t, woken t -> woken (exec es t)) by (induction es0 as [|e es0 IH]; intros u U; [exact U | apply (IH (happen e u)), woken_happen, U]).
    apply G. split; cbn; [lia | discriminate]. }
  destruct (deleted_exec es' t W D) as [C L]. split.
  - assert (0 <= one_call (at_ (exec es' t)) <= 1) by (destruct (at_ (exec es' t)); cbn; lia). assert (0 <= one_call (at_ t) <= 1) by (destruct (at_ t); cbn; lia). lia.
  - intros S. assert (B : (left_steps (at_ t) <= 5)%nat) by (destruct (at_ t); cbn; lia). destruct (at_ (exec es' t)); cbn [left_steps] in L; try lia. reflexivity.
Qed.
Example C104_deleted_example : let t := exec [Step; Tick; Tick; Step; Step; Delete] (itimer_init 2) in deleted t = true /\ calls t = 0 /\
  calls (exec [Step; Step; Tick; Step; Step; Step] t) = 1 /\ at_ (exec [Step; Step; Tick; Step; Step; Step] t) = Ended.
Proof. repeat split. Qed.

(** A tick between the two is neither called nor counted; the function is called after the timer was deleted; a timer of an interval rounded to 0 is never called. *)
Theorem C104_refuted :
  (exists n es, 0 < n /\ ~ In Delete es /\ let t := exec es (itimer_init n) in at_ t = AtWait /\ sem t = 0 /\ calls t + missed t <> due n es) /\
  (exists n es t, 0 < n /\ t = exec es (itimer_init n) /\ calls t = 0 /\ due n es = 0 /\ calls (exec [Delete; Step; Step; Step; Step; Step] t) = 1) /\
  forall es, run_count (exec es (itimer_init 0)) = 0.
Proof.
  split; [|split].
  - exists 1, [Step; Tick; Step; Step; Tick; Step; Step; Step]. split; [lia|]. split; [intros H; repeat (destruct H as [H | H]; [discriminate|]); destruct H|]. repeat split. discriminate.
  - exists 2, [Step]. eexists. split; [lia|]. split; [reflexivity|]. repeat split.
  - assert (K : forall es t, current t <= 0 -> run_count (exec es t) = run_count t).
    { induction es as [|e es IH]; intros t C; [reflexivity|]. cbn [exec fold_left]. change (fold_left (fun t e => happen e t) es (happen e t)) with (exec es (happen e t)).
      assert (Q : current (happen e t) <= 0 /\ run_count (happen e t) = run_count t); [|destruct Q as [Q1 Q2]; rewrite (IH _ Q1); exact Q2].
      destruct e; cbn [happen]; [| split; auto | split; auto | destruct (deleted t); split; auto |].
      - destruct (deleted t); [auto|]. unfold tick. destruct (running t); [|auto]. destruct (Z.eqb_spec (current t - 1) 0); [lia|]. cbn [current run_count]. lia.
      - destruct (step_side t) as (_ & B & E & _). rewrite B, E. auto. }
    intros es. apply (K es (itimer_init 0)). cbn. lia.
Qed.

Example C104_example : let es := [Tick; Step; Tick; Tick; Tick; Step; Step; Step; Step; Step; Stop; Tick; Start; Tick; Tick; Step; Step; Step; Step; Step] in
  ~ In Delete es /\ undisturbed es (itimer_init 2) /\ let t := exec es (itimer_init 2) in at_ t = AtWait /\ sem t = 0 /\ calls t = 2 /\ missed t = 1 /\ due 2 es = 3.
Proof. cbv zeta. split; [intros H; repeat (destruct H as [H | H]; [discriminate|]); destruct H|]. split; [lazy; repeat split; auto; discriminate|]. repeat split. Qed.

Print Assumptions C104_count.
Print Assumptions C104_calls.
Print Assumptions C104_all_partial.
Print Assumptions C104_deleted_partial.
Print Assumptions C104_refuted.
