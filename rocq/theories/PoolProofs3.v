(** The thread pool: consequences of the invariant, and the hand-over of the special bindings. *)
From Verif Require Import PoolModel LockProofs PoolProofs PoolProofs2.

Lemma nodup_unique {A} (f : A -> nat) l x y : NoDup (map f l) -> In x l -> In y l -> f x = f y -> x = y.
Proof.
  induction l as [|a l IH]; intros N X Y E; [contradiction|]. cbn [map] in N. inversion N as [|? ? N1 N2]; subst.
  destruct X as [<-|X], Y as [<-|Y].
  - reflexivity.
  - exfalso. apply N1. rewrite E. apply in_map. exact Y.
  - exfalso. apply N1. rewrite <- E. apply in_map. exact X.
  - exact (IH N2 X Y E).
Qed.

Theorem ret_ok n m s i v : reachable n m s -> In (i, v) (rets s) ->
  exists f a, nth_error (calls s) i = Some (true, f, a) /\ In (i, f, a, v) (runs s).
Proof. intros H R. destruct (inv_reachable n m s H) as (own & loc & _ & _ & _ & (_ & _ & G3 & _) & _). apply (G3 i v R). Qed.
Theorem ret_once n m s i v v' : reachable n m s -> In (i, v) (rets s) -> In (i, v') (rets s) -> v = v'.
Proof.
  intros H R R'. destruct (inv_reachable n m s H) as (own & loc & _ & _ & _ & (_ & _ & _ & G4 & _) & _).
  pose proof (nodup_unique fst _ _ _ G4 R R' eq_refl) as X. congruence.
Qed.
Theorem rets_nodup n m s : reachable n m s -> NoDup (map fst (rets s)).
Proof. intros H. destruct (inv_reachable n m s H) as (own & loc & _ & _ & _ & (_ & _ & _ & G4 & _) & _). exact G4. Qed.
Theorem run_ok n m s i f a v : reachable n m s -> In (i, f, a, v) (runs s) -> exists w, nth_error (calls s) i = Some (w, f, a).
Proof. intros H R. destruct (inv_reachable n m s H) as (own & loc & _ & _ & _ & (G1 & _) & _). apply (G1 i f a v R). Qed.
Theorem runs_nodup n m s : reachable n m s -> NoDup (map idof (runs s)).
Proof. intros H. destruct (inv_reachable n m s H) as (own & loc & _ & _ & _ & (_ & G2 & _) & _). exact G2. Qed.
Theorem no_crash n m s : reachable n m s -> crashed s = false.
Proof. intros H. destruct (inv_reachable n m s H) as (own & loc & _ & _ & _ & _ & _ & K). exact K. Qed.

Theorem wait_goes_on n m s c p i : reachable n m s -> c < n -> clients s c = QDone p i ->
  exists s', step n m s s' /\ (clients s' c <> clients s c \/ work (ports s' p) <> work (ports s p)).
Proof.
  intros Hr Lc E. destruct (inv_reachable n m s Hr) as (own & loc & H).
  destruct (client_at n m s own loc c H Lc _ E) as (Lp & O). apply (port_at n m s own loc c H p _ O Lp E). intros A0 (_ & G & Wt & N & S).
  unfold stage, still in S. stage_cases S.
  - eexists. split; [exact (w_post n m p s Lp E0)|]. right. cbn [set_free st_p ports]. rewrite upd_eq, E0. discriminate.
  - eexists. split; [apply (w_wait n m p s Lp E0); lia|]. right. cbn [set_free st_p ports]. rewrite upd_eq, E0. discriminate.
  - eexists. split; [exact (w_copy n m p s Lp E0)|]. right. cbn [set_free st_p ports]. rewrite upd_eq, E0. discriminate.
  - eexists. split; [exact (w_args n m p s Lp E0)|]. right. cbn [set_free st_p ports]. rewrite upd_eq, E0. discriminate.
  - eexists. split; [exact (w_func n m p _ s Lp E0)|]. right. cbn [set_free st_p ports]. rewrite upd_eq, E0. discriminate.
  - eexists. split; [exact (w_run n m p _ _ 0 s Lp E0)|]. right. cbn [log_run st_p ports]. rewrite upd_eq, E0. discriminate.
  - eexists. split; [exact (w_store n m p _ s Lp E0)|]. right. cbn [set_free st_p ports]. rewrite upd_eq, E0. discriminate.
  - eexists. split; [exact (w_test n m p s Lp E0)|]. right. cbn [set_free st_p ports]. rewrite upd_eq, E0. cbn [set_work work]. destruct (wait (ports s p)); discriminate.
  - eexists. split; [exact (w_done n m p s Lp E0)|]. right. cbn [set_free st_p ports]. rewrite upd_eq, E0. discriminate.
  - eexists. split; [apply (q_done n m c p i s Lc E); lia|]. left. cbn [st_c st_p clients]. rewrite upd_eq, E. discriminate.
Qed.

(** ** The special bindings *)
Definition atRun (p : nat) (C : cpc) : bool := match C with CRun q _ _ => q =? p | _ => false end.
(** posted, and the worker has not yet posted runsem *)
Definition unstarted (P : port) : nat :=
  match work P with WPost | WWait => reqsem P | WCopy => 1 | _ => 0 end.
Definition rinv (n m : nat) (s : st) : Prop :=
  forall p, p < m -> runsem (ports s p) + unstarted (ports s p) = cnt (atRun p) (clients s) n.
Definition winv (n : nat) (s : st) : Prop :=
  forall c p w i, c < n -> clients s c = CRun p w i -> exists f a, nth_error (calls s) i = Some (w, f, a).

Lemma winv_reachable n m s : reachable n m s -> winv n s.
Proof.
  intros Hr. induction Hr as [|s s' Hr IH St]; [intros c p w i _ E; discriminate|].
  destruct (inv_reachable n m s Hr) as (own & loc & H).
  assert (K : clients s' = clients s -> more (calls s) (calls s') -> winv n s').
  { intros Ec M c p w i Lc E. rewrite Ec in E. destruct (IH c p w i Lc E) as (f & a & X). exists f, a. apply M. exact X. }
  assert (U : forall c C, clients s' = upd (clients s) c C -> (forall p w i, C = CRun p w i -> exists f a, nth_error (calls s) i = Some (w, f, a)) -> more (calls s) (calls s') -> winv n s').
  { intros c C Ec HC M d p w i Ld E. rewrite Ec in E. destruct (Nat.eq_dec d c) as [->|Nd].
    - rewrite upd_eq in E. destruct (HC p w i E) as (f & a & X). exists f, a. apply M. exact X.
    - rewrite upd_neq in E by exact Nd. destruct (IH d p w i Ld E) as (f & a & X). exists f, a. apply M. exact X. }
  destruct St as [p s Lp W|p s Lp W|p s Lp W R|p s Lp W|p s Lp W|p a s Lp W|p f a v s Lp W|p v s Lp W|p s Lp W|p s Lp W|p s Lp W R
    |c w f a s Lc E|c w f a i s Lc E F|c w f a i p l s Lc E F|c w f a i s Lc E F|c p w f a i s Lc E|c p w f a i s Lc E|c p w f a i s Lc E|c p w f a i s Lc E|c p w i s Lc E R
    |c p i s Lc Lp E Pe|c p i s Lc E D|c p i s Lc E|c p i v s Lc E];
    try (apply K; [reflexivity|apply more_refl]);
    try (eapply (U c); [cbn; reflexivity|discriminate|apply more_refl]; fail).
  - eapply (U c); [cbn; reflexivity|discriminate|apply more_app].
  - eapply (U c); [cbn; reflexivity| |apply more_refl]. intros p0 w0 i0 X. injection X as <- <- <-.
    destruct (client_at n m s own loc c H Lc _ E) as (_ & _ & _ & N). exists f, a. exact N.
  - destruct (wait (ports s p)); [|apply K; [reflexivity|apply more_refl]]. eapply (U c); [cbn; reflexivity|discriminate|apply more_refl].
Qed.

Lemma rinv_reachable n m s : reachable n m s -> rinv n m s.
Proof.
  intros Hr. induction Hr as [|s s' Hr IH St].
  - intros p _. cbn [init ports clients port0 runsem unstarted work]. induction n as [|k IHk]; [reflexivity|]. cbn [cnt]. rewrite <- IHk. reflexivity.
  - destruct (inv_reachable n m s Hr) as (own & loc & H).
    assert (KP : forall p P, p < m -> ports s' = upd (ports s) p P -> clients s' = clients s ->
        runsem P + unstarted P = runsem (ports s p) + unstarted (ports s p) -> rinv n m s').
    { intros p P Lp Ep Ec E q Lq. rewrite Ep, Ec. destruct (Nat.eq_dec q p) as [->|Nq]; [rewrite upd_eq, E|rewrite upd_neq by exact Nq]; apply IH; assumption. }
    assert (KC : forall c C, c < n -> ports s' = ports s -> clients s' = upd (clients s) c C ->
        (forall p, atRun p C = atRun p (clients s c)) -> rinv n m s').
    { intros c C Lc Ep Ec E q Lq. rewrite Ep, Ec, cnt_same by apply E. apply IH. exact Lq. }
    assert (KB : forall p P c C, p < m -> c < n -> ports s' = upd (ports s) p P -> clients s' = upd (clients s) c C ->
        (forall q, q <> p -> atRun q C = atRun q (clients s c)) ->
        runsem P + unstarted P + b2n (atRun p (clients s c)) = runsem (ports s p) + unstarted (ports s p) + b2n (atRun p C) -> rinv n m s').
    { intros p P c C Lp Lc Ep Ec E F q Lq. rewrite Ep, Ec. destruct (Nat.eq_dec q p) as [->|Nq].
      - rewrite upd_eq. pose proof (cnt_upd (atRun p) (clients s) c C n Lc) as X. pose proof (IH p Lp). lia.
      - rewrite upd_neq by exact Nq. rewrite cnt_same by (apply E; exact Nq). apply IH. exact Lq. }
    assert (St0 : forall p, p < m -> work (ports s p) = WStart \/ work (ports s p) = WPush -> reqsem (ports s p) = 0).
    { intros p Lp W. destruct H as (I1 & _). destruct (I1 p Lp) as [_ C].
      assert (NA : forall i w, active (ports s p) p i w loc (runs s) (calls s) -> reqsem (ports s p) = 0).
      { intros i w (_ & _ & _ & S). unfold stage, still in S. stage_cases S; try assumption; destruct W; congruence. }
      destruct (own p) as [| |d| |].
      - apply C. - apply C.
      - destruct (clients s d); try contradiction; try (apply C; fail); try (eapply NA; apply C).
      - destruct C as (i & _ & C). exact (NA _ _ C).
      - destruct C as [(i & C)|(C & _)]; [exact (NA _ _ C)|destruct W; congruence]. }
    assert (Pre1 : forall p, p < m -> pre (work (ports s p)) -> reqsem (ports s p) <= 1).
    { intros p Lp W. destruct H as (I1 & _). destruct (I1 p Lp) as [_ C].
      assert (NA : forall i w, active (ports s p) p i w loc (runs s) (calls s) -> reqsem (ports s p) <= 1).
      { intros i w (_ & _ & _ & S). unfold stage, still in S. stage_cases S; lia. }
      assert (NS : still (ports s p) -> reqsem (ports s p) <= 1) by (intros [X _]; lia).
      destruct (own p) as [| |d| |].
      - apply NS, C. - apply NS, C.
      - destruct (clients s d); try contradiction; try (apply NS; apply C; fail); try (eapply NA; apply C);
          try (destruct C as (_ & C & _); destruct W; congruence).
      - destruct C as (i & _ & C). exact (NA _ _ C).
      - destruct C as [(i & C)|(C & _)]; [exact (NA _ _ C)|destruct W; congruence]. }
    destruct St as [p s Lp W|p s Lp W|p s Lp W R|p s Lp W|p s Lp W|p a s Lp W|p f a v s Lp W|p v s Lp W|p s Lp W|p s Lp W|p s Lp W R
      |c w f a s Lc E|c w f a i s Lc E F|c w f a i p l s Lc E F|c w f a i s Lc E F|c p w f a i s Lc E|c p w f a i s Lc E|c p w f a i s Lc E|c p w f a i s Lc E|c p w i s Lc E R
      |c p i s Lc Lp E Pe|c p i s Lc E D|c p i s Lc E|c p i v s Lc E].
    + eapply (KP p); [exact Lp|cbn; reflexivity|reflexivity|]. unfold unstarted, set_work. cbn [work runsem reqsem].
      rewrite (St0 p Lp W). destruct W as [-> | ->]; reflexivity.
    + eapply (KP p); [exact Lp|cbn; reflexivity|reflexivity|]. unfold unstarted, set_work. cbn [work runsem reqsem]. rewrite W. reflexivity.
    + eapply (KP p); [exact Lp|cbn; reflexivity|reflexivity|]. unfold unstarted. cbn [work runsem reqsem]. rewrite W.
      pose proof (Pre1 p Lp (or_intror W)). lia.
    + eapply (KP p); [exact Lp|cbn; reflexivity|reflexivity|]. unfold unstarted. cbn [work runsem reqsem]. rewrite W. lia.
    + eapply (KP p); [exact Lp|cbn; reflexivity|reflexivity|]. unfold unstarted, set_work. cbn [work runsem reqsem]. rewrite W. lia.
    + eapply (KP p); [exact Lp|cbn; reflexivity|reflexivity|]. unfold unstarted, set_work. cbn [work runsem reqsem]. rewrite W. lia.
    + eapply (KP p); [exact Lp|cbn; reflexivity|reflexivity|]. unfold unstarted, set_work. cbn [work runsem reqsem]. rewrite W. lia.
    + eapply (KP p); [exact Lp|cbn; reflexivity|reflexivity|]. unfold unstarted. cbn [work runsem reqsem]. rewrite W. lia.
    + eapply (KP p); [exact Lp|cbn; reflexivity|reflexivity|]. unfold unstarted, set_work. cbn [work runsem reqsem]. rewrite W. destruct (wait (ports s p)); lia.
    + eapply (KP p); [exact Lp|cbn; reflexivity|reflexivity|]. unfold unstarted. cbn [work runsem reqsem]. rewrite W. lia.
    + eapply (KP p); [exact Lp|cbn; reflexivity|reflexivity|]. unfold unstarted. cbn [work runsem reqsem]. rewrite W. lia.
    + eapply (KC c); [exact Lc|reflexivity|cbn; reflexivity|]. rewrite E. reflexivity.
    + eapply (KC c); [exact Lc|reflexivity|cbn; reflexivity|]. rewrite E. reflexivity.
    + eapply (KC c); [exact Lc|reflexivity|cbn; reflexivity|]. rewrite E. reflexivity.
    + intros q Lq. exact (IH q Lq).
    + destruct (client_at n m s own loc c H Lc _ E) as (Lp & _).
      eapply (KB p _ c); [exact Lp|exact Lc|cbn; reflexivity|cbn; reflexivity|rewrite E; reflexivity|rewrite E; reflexivity].
    + destruct (client_at n m s own loc c H Lc _ E) as (Lp & _).
      eapply (KB p _ c); [exact Lp|exact Lc|cbn; reflexivity|cbn; reflexivity|rewrite E; reflexivity|rewrite E; reflexivity].
    + destruct (client_at n m s own loc c H Lc _ E) as (Lp & _).
      eapply (KB p _ c); [exact Lp|exact Lc|cbn; reflexivity|cbn; reflexivity|rewrite E; reflexivity|rewrite E; reflexivity].
    + destruct (client_at n m s own loc c H Lc _ E) as (Lp & O & _). apply (port_at n m s own loc c H p _ O Lp E). intros _ (_ & B & (D1 & D2) & _).
      eapply (KB p _ c); [exact Lp|exact Lc|cbn; reflexivity|cbn; reflexivity| |].
      * intros q Nq. rewrite E. cbn [atRun]. apply Nat.eqb_neq. congruence.
      * rewrite E. cbn [atRun b2n]. rewrite Nat.eqb_refl. cbn [b2n]. unfold unstarted. cbn [work runsem reqsem]. destruct B as [-> | ->]; lia.
    + destruct (client_at n m s own loc c H Lc _ E) as (Lp & _).
      eapply (KB p _ c); [exact Lp|exact Lc|cbn; reflexivity|cbn; reflexivity| |].
      * intros q Nq. rewrite E. cbn [atRun]. symmetry. apply Nat.eqb_neq. congruence.
      * rewrite E. cbn [atRun b2n]. rewrite Nat.eqb_refl. cbn [b2n]. unfold unstarted. cbn [work runsem reqsem]. destruct (work (ports s p)); lia.
    + destruct (wait (ports s p)); [|intros q Lq; exact (IH q Lq)]. eapply (KC c); [exact Lc|reflexivity|cbn; reflexivity|]. rewrite E. reflexivity.
    + destruct (client_at n m s own loc c H Lc _ E) as (Lp & _).
      eapply (KB p _ c); [exact Lp|exact Lc|cbn; reflexivity|cbn; reflexivity|rewrite E; reflexivity|rewrite E; reflexivity].
    + eapply (KC c); [exact Lc|reflexivity|cbn; reflexivity|]. rewrite E. reflexivity.
    + destruct (client_at n m s own loc c H Lc _ E) as (Lp & O). apply (port_at n m s own loc c H p _ O Lp E). intros _ (_ & B & _).
      eapply (KB p _ c); [exact Lp|exact Lc|cbn; reflexivity|cbn; reflexivity|rewrite E; reflexivity|].
      rewrite E. unfold unstarted. cbn [work runsem reqsem atRun b2n]. rewrite B. lia.
Qed.
Lemma cnt_zero {A} (Q : A -> bool) f n : (forall t, t < n -> Q (f t) = false) -> cnt Q f n = 0.
Proof. induction n as [|n IH]; intros H; [reflexivity|]. cbn [cnt]. rewrite IH, H by auto. reflexivity. Qed.

(** when only thread is used, a call of thread has returned only after the special bindings were copied *)
Theorem copied n m s p i : reachable n m s -> p < m -> (forall w f a, In (w, f, a) (calls s) -> w = true) -> pend s p = Some i ->
  gid (ports s p) = i /\ match work (ports s p) with WArgs | WFunc _ | WRun _ _ | WStore _ | WTest | WDone | WAck => True | _ => False end.
Proof.
  intros Hr Lp All Ep. destruct (inv_reachable n m s Hr) as (own & loc & H).
  destruct (pend_wait n m s own loc H p i Lp Ep) as (O & G & Wt & N & S). split; [exact G|].
  pose proof (rinv_reachable n m s Hr p Lp) as R. rewrite cnt_zero in R.
  - unfold stage, still in S. unfold unstarted in R. stage_cases S; rewrite E in R |- *; try exact I; lia.
  - intros c Lc. destruct (clients s c) as [| | | | | | |q w j| | |] eqn:E; try reflexivity. cbn [atRun]. apply Nat.eqb_neq. intros ->.
    destruct (winv_reachable n m s Hr c p w j Lc E) as (f & a & X). apply nth_error_In in X. apply All in X.
    destruct (client_at n m s own loc c H Lc _ E) as (_ & Y). rewrite (Y X) in O. discriminate.
Qed.
(** a requester waiting for runsem is not left behind *)
Theorem request_goes_on n m s c p w i : reachable n m s -> c < n -> clients s c = CRun p w i ->
  exists s', step n m s s' /\ (clients s' c <> clients s c \/ work (ports s' p) <> work (ports s p)).
Proof.
  intros Hr Lc E. destruct (inv_reachable n m s Hr) as (own & loc & H). destruct (client_at n m s own loc c H Lc _ E) as (Lp & _).
  pose proof (rinv_reachable n m s Hr p Lp) as R.
  pose proof (cnt_pos (atRun p) (clients s) n c Lc ltac:(rewrite E; cbn [atRun]; apply Nat.eqb_refl)) as X.
  destruct (Nat.eq_dec (runsem (ports s p)) 0) as [Z|Z].
  - assert (U : 0 < unstarted (ports s p)) by lia. unfold unstarted in U. destruct (work (ports s p)) eqn:W; try lia.
    + eexists. split; [exact (w_post n m p s Lp W)|]. right. cbn [set_free st_p ports]. rewrite upd_eq. discriminate.
    + eexists. split; [exact (w_wait n m p s Lp W U)|]. right. cbn [set_free st_p ports]. rewrite upd_eq. discriminate.
    + eexists. split; [exact (w_copy n m p s Lp W)|]. right. cbn [set_free st_p ports]. rewrite upd_eq. discriminate.
  - eexists. split; [apply (c_run n m c p w i s Lc E); lia|]. left. cbn [set_pend st_c st_p clients]. rewrite upd_eq, E. discriminate.
Qed.
