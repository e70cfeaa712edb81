(** Proofs for C104. *)
From Coq Require Import ZArith List Bool Lia.
From Verif Require Import CycModel CycSpec.
Import ListNotations.
Open Scope Z_scope.

Lemma exec_app a b t : exec (a ++ b) t = exec b (exec a t). Proof. apply fold_left_app. Qed.
(** the side that ticks: [k] ticks that count have been since the start *)
Definition counted (n k : Z) (t : timer) : Prop := interval t = n /\ run_count t * n + (n - current t) = k /\ 0 < current t <= n.
Lemma step_side t : interval (step t) = interval t /\ run_count (step t) = run_count t /\ current (step t) = current t /\ running (step t) = running t /\ deleted (step t) = deleted t.
Proof. unfold step, go. destruct (at_ t); [destruct (deleted t) eqn:D | destruct (0 <? sem t) | | | |]; cbn [interval run_count current running deleted]; auto. Qed.
Lemma deleted_stays : forall es t, deleted t = true -> run_count (exec es t) = run_count t /\ interval (exec es t) = interval t /\ current (exec es t) = current t.
Proof.
  induction es as [|e es IH]; intros t D; [auto|]. cbn [exec fold_left]. change (fold_left (fun t e => happen e t) es (happen e t)) with (exec es (happen e t)).
  assert (K : deleted (happen e t) = true /\ run_count (happen e t) = run_count t /\ interval (happen e t) = interval t /\ current (happen e t) = current t).
  { destruct e; cbn [happen]; rewrite ?D; cbn [set_running deleted run_count interval current]; auto. destruct (step_side t) as (A & B & C & _ & E). rewrite E, A, B, C. auto. }
  destruct K as (K & A & B & C). destruct (IH _ K) as (A' & B' & C'). rewrite A', B', C', A, B, C. auto.
Qed.
Lemma counted_exec n : forall es k t, counted n k t -> deleted t = false -> counted n (k + ticks (running t) es) (exec es t).
Proof.
  induction es as [|e es IH]; intros k t C D; [cbn [ticks exec fold_left]; rewrite Z.add_0_r; exact C|].
  cbn [exec fold_left]. change (fold_left (fun t e => happen e t) es (happen e t)) with (exec es (happen e t)). destruct C as (C1 & C2 & C3).
  destruct e; cbn [happen ticks]; rewrite ?D.
  - unfold tick. destruct (running t) eqn:R.
    + assert (K : counted n (k + 1) (if current t - 1 =? 0 then sema_post (Tm (interval t) (interval t) true (run_count t + 1) (missed t) (deleted t) (sem t) (at_ t) (calls t))
        else Tm (interval t) (current t - 1) true (run_count t) (missed t) (deleted t) (sem t) (at_ t) (calls t))).
      { destruct (Z.eqb_spec (current t - 1) 0); unfold counted, sema_post; cbn [interval run_count current]; lia. }
      rewrite Z.add_assoc. destruct (current t - 1 =? 0); (specialize (IH _ _ K); cbn [sema_post deleted running] in IH; apply IH; exact D).
    + specialize (IH k t (conj C1 (conj C2 C3)) D). rewrite R in IH. exact IH.
  - apply (IH k (set_running true t)); [unfold counted, set_running; cbn [interval run_count current]; auto | exact D].
  - apply (IH k (set_running false t)); [unfold counted, set_running; cbn [interval run_count current]; auto | exact D].
  - rewrite Z.add_0_r. destruct (deleted_stays es (delete t) eq_refl) as (A & B & E). unfold counted. rewrite A, B, E. cbn [delete sema_post run_count interval current]. auto.
  - destruct (step_side t) as (A & B & E & R & G). rewrite <- R. apply IH; [unfold counted; rewrite A, B, E; auto | congruence].
Qed.

(** ** calls *)
Definition busy (t : timer) : Z := match at_ t with AtCount | AtClear | AtApply => 1 | _ => 0 end.
(** what the thread will not count again: seen by AtCount, cleared by AtClear *)
Definition seen (t : timer) : Z := match at_ t with AtClear => 1 | _ => 0 end.
Definition posts (t : timer) : Z := run_count t + if deleted t then 1 else 0.
(** [m]: what is already in missed although still in the semaphore *)
Definition account (m : Z) (t : timer) : Prop :=
  calls t + busy t + missed t + sem t - m <= posts t /\ 0 <= m <= sem t /\ (at_ t <> AtClear -> m = 0) /\ 0 <= calls t /\ 0 <= missed t.
Lemma account_exec : forall es t, (exists m, account m t) -> exists m, account m (exec es t).
Proof.
  induction es as [|e es IH]; intros t [m C]; [eauto|]. cbn [exec fold_left]. change (fold_left (fun t e => happen e t) es (happen e t)) with (exec es (happen e t)). apply IH.
  destruct t as [i c r rc mi d s a ca]. unfold account, posts, busy in *. cbn [at_ calls missed sem deleted run_count] in C. destruct C as (C1 & C2 & C3 & C4 & C5).
  destruct e; cbn [happen deleted].
  - destruct d; [exists m; cbn [at_ calls missed sem deleted run_count]; auto|]. unfold tick. cbn [running current interval]. destruct r; [|exists m; cbn [at_ calls missed sem deleted run_count]; auto].
    destruct (c - 1 =? 0); exists m; cbn [sema_post at_ calls missed sem deleted run_count]; repeat split; try lia; auto.
  - exists m. cbn [set_running at_ calls missed sem deleted run_count]. auto.
  - exists m. cbn [set_running at_ calls missed sem deleted run_count]. auto.
  - destruct d; exists m; cbn [delete sema_post at_ calls missed sem deleted run_count]; repeat split; try lia; auto.
  - unfold step, go. cbn [at_ deleted sem]. destruct a.
    + assert (m = 0) by (apply C3; discriminate). destruct d; exists 0; cbn [at_ calls missed sem deleted run_count]; repeat split; try lia; auto.
    + assert (m = 0) by (apply C3; discriminate). destruct (Z.ltb_spec 0 s); exists 0; cbn [at_ calls missed sem deleted run_count]; repeat split; try lia; auto.
    + assert (m = 0) by (apply C3; discriminate). exists s. cbn [at_ calls missed sem deleted run_count]. repeat split; try lia. intros N. destruct N. reflexivity.
    + exists 0. cbn [at_ calls missed sem deleted run_count]. repeat split; try lia.
    + assert (m = 0) by (apply C3; discriminate). exists 0. cbn [at_ calls missed sem deleted run_count]. repeat split; try lia.
    + exists m. cbn [at_ calls missed sem deleted run_count]. auto.
Qed.
(** nothing happens between counting and clearing *)
Fixpoint undisturbed (es : list event) (t : timer) : Prop :=
  match es with [] => True | e :: r => (at_ t = AtClear -> e = Step) /\ undisturbed r (happen e t) end.
Definition exact_account (t : timer) : Prop :=
  calls t + busy t + missed t + (match at_ t with AtClear => 0 | _ => sem t end) = posts t /\ 0 <= sem t.
Lemma exact_exec : forall es t, exact_account t -> undisturbed es t -> exact_account (exec es t).
Proof.
  induction es as [|e es IH]; intros t C U; [exact C|]. cbn [exec fold_left]. change (fold_left (fun t e => happen e t) es (happen e t)) with (exec es (happen e t)).
  destruct U as [U1 U2]. apply IH; [|exact U2]. clear IH U2.
  destruct t as [i c r rc mi d s a ca]. unfold exact_account, posts, busy in *. cbn [at_ calls missed sem deleted run_count] in *. destruct C as [C1 C2].
  destruct e; cbn [happen deleted].
  - destruct d; [auto|]. unfold tick. cbn [running current interval]. destruct r; [|auto].
    assert (a <> AtClear) by (intros Q; specialize (U1 Q); discriminate).
    destruct (c - 1 =? 0); cbn [sema_post at_ calls missed sem deleted run_count]; destruct a; try contradiction; lia.
  - auto.
  - auto.
  - destruct d; [auto|]. assert (a <> AtClear) by (intros Q; specialize (U1 Q); discriminate). cbn [delete sema_post at_ calls missed sem deleted run_count]. destruct a; try contradiction; lia.
  - unfold step, go. cbn [at_ deleted sem]. destruct a.
    + destruct d; cbn [at_ calls missed sem deleted run_count]; auto.
    + destruct (Z.ltb_spec 0 s); cbn [at_ calls missed sem deleted run_count]; lia.
    + cbn [at_ calls missed sem deleted run_count]; lia.
    + cbn [at_ calls missed sem deleted run_count]; lia.
    + cbn [at_ calls missed sem deleted run_count]; lia.
    + auto.
Qed.
