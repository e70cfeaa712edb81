(** C50, C51, C53: locks, semaphores and memory ports under every interleaving.

    The readers of these theorems need only the program counters and the fields of LockModel.v and PortModel.v:
    [Hold k] is a thread between rw_rdlock/rw_wrlock and rw_unlock, [Sleep] and [WSleep] a thread inside
    pthread_cond_wait. *)
From Verif Require Import LockModel LockProofs PortModel PortProofs.

(** ** C50 *)
(** While a writer holds the lock nobody else does.  The system has at most 64 threads (eus.h:149). *)
Theorem C50_exclusion n s t u : (Z.of_nat n < 4294967295)%Z -> RW.reachable n s -> t < n -> u < n -> t <> u ->
  RW.pcs s t = RW.Hold RW.W -> RW.pcs s u <> RW.Hold RW.W /\ RW.pcs s u <> RW.Hold RW.R.
Proof.
  intros Bn Hr Lt Lu N Ht. split; intros Hu; apply (RWP.exclusion n s t u Bn Hr Lt Lu N Ht); [left|right]; exact Hu.
Qed.
Print Assumptions C50_exclusion.

(** When nobody holds the lock and a thread has asked for it, some call in progress can go on: nobody sleeps on a
    free lock without a wake-up under way. *)
Theorem C50_progress n s t k : (Z.of_nat n < 4294967295)%Z -> RW.reachable n s -> t < n ->
  (forall u j, u < n -> RW.pcs s u <> RW.Hold j) ->
  RW.pcs s t = RW.Lock k \/ RW.pcs s t = RW.Test k \/ RW.pcs s t = RW.Sleep k \/ RW.pcs s t = RW.Woken k ->
  exists u s', RW.step n s s' /\ RW.pcs s' u <> RW.pcs s u /\
    match RW.pcs s u with RW.Idle | RW.Sleep _ | RW.Hold _ => False | _ => True end.
Proof. exact (RWP.progress n s t k). Qed.
Print Assumptions C50_progress.


(** Two readers hold the lock while a writer sleeps: the hypotheses are met with all kinds of threads. *)
Example C50_ex : exists s, RW.reachable 3 s /\ RW.pcs s 0 = RW.Hold RW.R /\ RW.pcs s 1 = RW.Hold RW.R /\ RW.pcs s 2 = RW.Sleep RW.W.
Proof.
  assert (L0 : 0 < 3) by lia. assert (L1 : 1 < 3) by lia. assert (L2 : 2 < 3) by lia.
  pose proof (RW.r_init 3) as H.
  match type of H with _ ?s => pose proof (RW.r_step 3 s _ H (RW.s_call 3 0 RW.R s ltac:(exact L0) ltac:(reflexivity))) as H' end; clear H; rename H' into H; cbn [RW.owner RW.readers RW.pcs RW.init] in H.
  match type of H with _ ?s => pose proof (RW.r_step 3 s _ H (RW.s_lock 3 0 RW.R s ltac:(exact L0) ltac:(reflexivity) ltac:(reflexivity))) as H' end; clear H; rename H' into H; cbn [RW.owner RW.readers RW.pcs RW.init] in H.
  match type of H with _ ?s => pose proof (RW.r_step 3 s _ H (RW.s_rgot 3 0 s ltac:(exact L0) ltac:(reflexivity) ltac:(discriminate))) as H' end; clear H; rename H' into H; cbn [RW.owner RW.readers RW.pcs RW.init] in H.
  match type of H with _ ?s => pose proof (RW.r_step 3 s _ H (RW.s_done 3 0 RW.R s ltac:(exact L0) ltac:(reflexivity))) as H' end; clear H; rename H' into H; cbn [RW.owner RW.readers RW.pcs RW.init] in H.
  match type of H with _ ?s => pose proof (RW.r_step 3 s _ H (RW.s_call 3 1 RW.R s ltac:(exact L1) ltac:(reflexivity))) as H' end; clear H; rename H' into H; cbn [RW.owner RW.readers RW.pcs RW.init] in H.
  match type of H with _ ?s => pose proof (RW.r_step 3 s _ H (RW.s_lock 3 1 RW.R s ltac:(exact L1) ltac:(reflexivity) ltac:(reflexivity))) as H' end; clear H; rename H' into H; cbn [RW.owner RW.readers RW.pcs RW.init] in H.
  match type of H with _ ?s => pose proof (RW.r_step 3 s _ H (RW.s_rgot 3 1 s ltac:(exact L1) ltac:(reflexivity) ltac:(discriminate))) as H' end; clear H; rename H' into H; cbn [RW.owner RW.readers RW.pcs RW.init] in H.
  match type of H with _ ?s => pose proof (RW.r_step 3 s _ H (RW.s_done 3 1 RW.R s ltac:(exact L1) ltac:(reflexivity))) as H' end; clear H; rename H' into H; cbn [RW.owner RW.readers RW.pcs RW.init] in H.
  match type of H with _ ?s => pose proof (RW.r_step 3 s _ H (RW.s_call 3 2 RW.W s ltac:(exact L2) ltac:(reflexivity))) as H' end; clear H; rename H' into H; cbn [RW.owner RW.readers RW.pcs RW.init] in H.
  match type of H with _ ?s => pose proof (RW.r_step 3 s _ H (RW.s_lock 3 2 RW.W s ltac:(exact L2) ltac:(reflexivity) ltac:(reflexivity))) as H' end; clear H; rename H' into H; cbn [RW.owner RW.readers RW.pcs RW.init] in H.
  match type of H with _ ?s => pose proof (RW.r_step 3 s _ H (RW.s_wsleep 3 2 s ltac:(exact L2) ltac:(reflexivity) ltac:(discriminate))) as H' end; clear H; rename H' into H; cbn [RW.owner RW.readers RW.pcs RW.init] in H.
  eexists. split; [exact H|].
  split; [reflexivity|]. split; reflexivity.
Qed.
(** A writer holds the lock. *)
Example C50_ex_writer : exists s, RW.reachable 2 s /\ RW.pcs s 0 = RW.Hold RW.W.
Proof.
  assert (L0 : 0 < 2) by lia.
  pose proof (RW.r_init 2) as H.
  match type of H with _ ?s => pose proof (RW.r_step 2 s _ H (RW.s_call 2 0 RW.W s ltac:(exact L0) ltac:(reflexivity))) as H' end; clear H; rename H' into H; cbn [RW.owner RW.readers RW.pcs RW.init] in H.
  match type of H with _ ?s => pose proof (RW.r_step 2 s _ H (RW.s_lock 2 0 RW.W s ltac:(exact L0) ltac:(reflexivity) ltac:(reflexivity))) as H' end; clear H; rename H' into H; cbn [RW.owner RW.readers RW.pcs RW.init] in H.
  match type of H with _ ?s => pose proof (RW.r_step 2 s _ H (RW.s_wgot 2 0 s ltac:(exact L0) ltac:(reflexivity) ltac:(reflexivity))) as H' end; clear H; rename H' into H; cbn [RW.owner RW.readers RW.pcs RW.init] in H.
  match type of H with _ ?s => pose proof (RW.r_step 2 s _ H (RW.s_done 2 0 RW.W s ltac:(exact L0) ltac:(reflexivity))) as H' end; clear H; rename H' into H; cbn [RW.owner RW.readers RW.pcs RW.init] in H.
  eexists. split; [exact H|].
  reflexivity.
Qed.

(** ** C51 *)
(** Completed waits never outnumber the posts. *)
Theorem C51_waits n s : Sem.reachable n s -> Sem.waits s <= Sem.posts s.
Proof. exact (SemP.waits_posts n s). Qed.
Print Assumptions C51_waits.

(** No post is lost while fewer than 2^32 are pending: the counter holds them all, and a thread that waits while
    posts are pending is not left behind. *)
Theorem C51_none_lost_partial n s : Sem.reachable n s ->
  (Z.of_nat (Sem.posts s) - Z.of_nat (Sem.waits s) < 4294967296)%Z ->
  Sem.count s = (Z.of_nat (Sem.posts s) - Z.of_nat (Sem.waits s))%Z /\
  (Sem.waits s < Sem.posts s -> forall t, t < n ->
    Sem.pcs s t = Sem.WLock \/ Sem.pcs s t = Sem.WTest \/ Sem.pcs s t = Sem.WSleep \/ Sem.pcs s t = Sem.WWoken ->
    exists u s', Sem.step n s s' /\ Sem.pcs s' u <> Sem.pcs s u /\
      match Sem.pcs s u with Sem.Idle | Sem.WSleep => False | _ => True end).
Proof.
  intros H B. split; [exact (SemP.none_lost n s H B)|]. intros L t Lt P. exact (SemP.progress n s t H Lt B L P).
Qed.
Print Assumptions C51_none_lost_partial.

(** After 2^32 posts the counter is back at zero: all of them are lost. *)
Theorem C51_overflow_refuted : exists s, Sem.reachable 1 s /\
  Z.of_nat (Sem.posts s) = 4294967296%Z /\ Sem.waits s = 0 /\ Sem.count s = 0%Z.
Proof.
  destruct (SemP.posting (Z.to_nat W32)) as (s & R & _ & _ & P & W & C). exists s. split; [exact R|].
  rewrite P. rewrite Z2Nat.id in C |- * by discriminate. split; [reflexivity|]. split; [exact W|]. rewrite C. reflexivity.
Qed.
Print Assumptions C51_overflow_refuted.

(** A thread sleeps in sema_wait while another has just posted and is about to wake it. *)
Example C51_ex : exists s, Sem.reachable 2 s /\ Sem.pcs s 0 = Sem.WSleep /\ Sem.pcs s 1 = Sem.PBc /\ Sem.posts s = 1 /\ Sem.waits s = 0.
Proof.
  assert (L0 : 0 < 2) by lia. assert (L1 : 1 < 2) by lia.
  pose proof (Sem.r_init 2) as H.
  match type of H with _ ?s => pose proof (Sem.r_step 2 s _ H (Sem.s_wait 2 0 s ltac:(exact L0) ltac:(reflexivity))) as H' end; clear H; rename H' into H; cbn [Sem.owner Sem.count Sem.pcs Sem.posts Sem.waits Sem.init] in H.
  match type of H with _ ?s => pose proof (Sem.r_step 2 s _ H (Sem.s_wlock 2 0 s ltac:(exact L0) ltac:(reflexivity) ltac:(reflexivity))) as H' end; clear H; rename H' into H; cbn [Sem.owner Sem.count Sem.pcs Sem.posts Sem.waits Sem.init] in H.
  match type of H with _ ?s => pose proof (Sem.r_step 2 s _ H (Sem.s_wsleep 2 0 s ltac:(exact L0) ltac:(reflexivity) ltac:(reflexivity))) as H' end; clear H; rename H' into H; cbn [Sem.owner Sem.count Sem.pcs Sem.posts Sem.waits Sem.init] in H.
  match type of H with _ ?s => pose proof (Sem.r_step 2 s _ H (Sem.s_post 2 1 s ltac:(exact L1) ltac:(reflexivity))) as H' end; clear H; rename H' into H; cbn [Sem.owner Sem.count Sem.pcs Sem.posts Sem.waits Sem.init] in H.
  match type of H with _ ?s => pose proof (Sem.r_step 2 s _ H (Sem.s_plock 2 1 s ltac:(exact L1) ltac:(reflexivity) ltac:(reflexivity))) as H' end; clear H; rename H' into H; cbn [Sem.owner Sem.count Sem.pcs Sem.posts Sem.waits Sem.init] in H.
  match type of H with _ ?s => pose proof (Sem.r_step 2 s _ H (Sem.s_pinc 2 1 s ltac:(exact L1) ltac:(reflexivity))) as H' end; clear H; rename H' into H; cbn [Sem.owner Sem.count Sem.pcs Sem.posts Sem.waits Sem.init] in H.
  eexists. split; [exact H|].
  split; [reflexivity|]. split; [reflexivity|]. split; reflexivity.
Qed.

(** ** C53 *)
(** The values fetched by :read are those stored by :write, each once and in order; at most one is on the way. *)
Theorem C53_in_order s : Mem.reachable s ->
  Mem.accepted s = Mem.returned s \/ exists v, Mem.accepted s = Mem.returned s ++ [v].
Proof. exact (in_order s). Qed.
Print Assumptions C53_in_order.

(** The value :read returns is the one it fetched, also when other threads write meanwhile. *)
Theorem C53_returns s t v : Mem.reachable s -> Mem.pcs s t = Mem.RPost v -> exists l, Mem.returned s = l ++ [v].
Proof.
  intros H P. destruct (returns s t v H P) as [E N]. exists (removelast (Mem.returned s)). rewrite <- E. exact (app_removelast_last 0 N).
Qed.
Print Assumptions C53_returns.

(** A :read that waits while a value is in the port, and a :write that waits while the port is empty, are not stuck. *)
Theorem C53_progress s t : Mem.reachable s ->
  (Mem.pcs s t = Mem.RWait /\ Mem.accepted s <> Mem.returned s) \/ (exists v, Mem.pcs s t = Mem.WWait v /\ Mem.accepted s = Mem.returned s) ->
  exists u s', Mem.step s s' /\ Mem.pcs s' u <> Mem.pcs s u /\ Mem.pcs s u <> Mem.Idle.
Proof. exact (goes_on s t). Qed.
Print Assumptions C53_progress.

(** Two values are written, the first is read while the second waits. *)
Example C53_ex : exists s, Mem.reachable s /\ Mem.accepted s = [7] /\ Mem.returned s = [7] /\ Mem.pcs s 0 = Mem.RPost 7 /\ Mem.pcs s 1 = Mem.WWait 8.
Proof.
  pose proof Mem.r_init as H.
  match type of H with _ ?s => pose proof (Mem.r_step s _ H (Mem.s_write 1 7 s ltac:(reflexivity))) as H' end; clear H; rename H' into H; cbn [Mem.sin Mem.sout Mem.buf Mem.pcs Mem.accepted Mem.returned Mem.init Nat.add Nat.sub app] in H.
  match type of H with _ ?s => pose proof (Mem.r_step s _ H (Mem.s_read 0 s ltac:(reflexivity))) as H' end; clear H; rename H' into H; cbn [Mem.sin Mem.sout Mem.buf Mem.pcs Mem.accepted Mem.returned Mem.init Nat.add Nat.sub app] in H.
  match type of H with _ ?s => pose proof (Mem.r_step s _ H (Mem.s_wwait 1 7 s ltac:(reflexivity) ltac:(cbn; lia))) as H' end; clear H; rename H' into H; cbn [Mem.sin Mem.sout Mem.buf Mem.pcs Mem.accepted Mem.returned Mem.init Nat.add Nat.sub app] in H.
  match type of H with _ ?s => pose proof (Mem.r_step s _ H (Mem.s_wset 1 7 s ltac:(reflexivity))) as H' end; clear H; rename H' into H; cbn [Mem.sin Mem.sout Mem.buf Mem.pcs Mem.accepted Mem.returned Mem.init Nat.add Nat.sub app] in H.
  match type of H with _ ?s => pose proof (Mem.r_step s _ H (Mem.s_wpost 1 s ltac:(reflexivity))) as H' end; clear H; rename H' into H; cbn [Mem.sin Mem.sout Mem.buf Mem.pcs Mem.accepted Mem.returned Mem.init Nat.add Nat.sub app] in H.
  match type of H with _ ?s => pose proof (Mem.r_step s _ H (Mem.s_write 1 8 s ltac:(reflexivity))) as H' end; clear H; rename H' into H; cbn [Mem.sin Mem.sout Mem.buf Mem.pcs Mem.accepted Mem.returned Mem.init Nat.add Nat.sub app] in H.
  match type of H with _ ?s => pose proof (Mem.r_step s _ H (Mem.s_rwait 0 s ltac:(reflexivity) ltac:(cbn; lia))) as H' end; clear H; rename H' into H; cbn [Mem.sin Mem.sout Mem.buf Mem.pcs Mem.accepted Mem.returned Mem.init Nat.add Nat.sub app] in H.
  match type of H with _ ?s => pose proof (Mem.r_step s _ H (Mem.s_rget 0 s ltac:(reflexivity))) as H' end; clear H; rename H' into H; cbn [Mem.sin Mem.sout Mem.buf Mem.pcs Mem.accepted Mem.returned Mem.init Nat.add Nat.sub app] in H.
  eexists. split; [exact H|].
  split; [reflexivity|]. split; [reflexivity|]. split; reflexivity.
Qed.
