(** The invariant of the thread pool: the clients' steps. *)
From Verif Require Import PoolModel LockProofs PoolProofs.

Definition tok (C : cpc) : option nat :=
  match C with
  | CFunc p _ _ _ _ | CArgs p _ _ _ _ | CWait p _ _ _ _ | CPost p _ _ _ _ | CRun p true _ | QDone p _ | QRead p _ | QAck p _ _ => Some p
  | _ => None
  end.
Lemma tied n m s own loc c q : inv n m s own loc -> q < m -> own q = OClient c -> tok (clients s c) = Some q.
Proof.
  intros (I1 & _) Lq O. destruct (I1 q Lq) as [_ C]. rewrite O in C.
  destruct (clients s c) as [| | |p w f a i|p w f a i|p w f a i|p w f a i|p w i|p i|p i|p i v]; try contradiction; cbn [tok].
  - destruct C as [-> _]; reflexivity.
  - destruct C as [-> _]; reflexivity.
  - destruct C as [-> _]; reflexivity.
  - destruct C as [-> _]; reflexivity.
  - destruct C as (-> & -> & _). reflexivity.
  - destruct C as [-> _]; reflexivity.
  - destruct C as [-> _]; reflexivity.
  - destruct C as [-> _]; reflexivity.
Qed.
Lemma finv_own n m s own own' : finv n m s own -> (forall q, own q = OFree -> own' q = OFree) -> finv n m s own'.
Proof. intros (F1 & F2 & F3) O. split; [exact F1|]. split; [|exact F3]. intros q Hq. destruct (F2 q Hq). auto. Qed.

Section Clients.
  Variables (n m : nat) (s : st) (own : nat -> who) (loc : nat -> place) (c : nat).
  Hypothesis (H : inv n m s own loc) (Lc : c < n).

  (** the client and its port change *)
  Lemma both p P' C' : own p = OClient c -> p < m -> isPost P' = isPost (ports s p) -> isPop C' = isPop (clients s c) ->
    pinv P' p (own p) (upd (clients s) c C') (pend s p) loc (runs s) (calls s) -> cinv m c C' own loc (calls s) ->
    inv n m (st_c (st_p s p P') c C') own loc.
  Proof.
    intros O Lp IP IC HP HC. pose proof H as (I1 & I2 & I3 & I4 & I5 & I6).
    apply (assemble n m s (st_c (st_p s p P') c C') own own loc loc p c H); cbn [st_c st_p ports clients pend runs calls rets crashed]; auto using incl_refl, more_refl.
    - intros q Nq. rewrite upd_neq by exact Nq. auto.
    - intros d Nd. apply upd_neq. exact Nd.
    - intros q Lq Nq Oq. pose proof (tied n m s own loc c q H Lq Oq) as T1. pose proof (tied n m s own loc c p H Lp O) as T2. congruence.
    - intros d E. exact (I2 p d E).
    - intros _. rewrite upd_eq. exact HP.
    - intros _. rewrite upd_eq. exact HC.
    - destruct I5 as (F1 & F2 & F3). split; [exact F1|]. split; [exact F2|]. cbn [st_c st_p free freesem clients ports].
      rewrite (cnt_same isPost) by exact IP. rewrite (cnt_same isPop) by exact IC. exact F3.
  Qed.

  Lemma client_at C : clients s c = C -> cinv m c C own loc (calls s).
  Proof. intros <-. destruct H as (_ & _ & I3 & _). exact (I3 c Lc). Qed.
  Lemma port_at p C : own p = OClient c -> p < m -> clients s c = C -> forall Q : Prop,
    ((pend s p <> None -> OClient c = OPend) -> match C with
      | CFunc q w f a i => q = p /\ pre (work (ports s p)) /\ still (ports s p)
      | CArgs q w f a i => q = p /\ pre (work (ports s p)) /\ still (ports s p) /\ func (ports s p) = f
      | CWait q w f a i => q = p /\ pre (work (ports s p)) /\ still (ports s p) /\ func (ports s p) = f /\ args (ports s p) = a
      | CPost q w f a i => q = p /\ pre (work (ports s p)) /\ still (ports s p) /\ func (ports s p) = f /\ args (ports s p) = a /\ wait (ports s p) = w
      | CRun q w i => q = p /\ w = true /\ active (ports s p) p i true loc (runs s) (calls s)
      | QDone q i => q = p /\ active (ports s p) p i true loc (runs s) (calls s)
      | QRead q i => q = p /\ answered (ports s p) p i (result (ports s p)) loc (runs s) (calls s)
      | QAck q i v => q = p /\ answered (ports s p) p i v loc (runs s) (calls s)
      | _ => False
      end -> Q) -> Q.
  Proof. intros O Lp E Q K. destruct H as (I1 & _). destruct (I1 p Lp) as [A B]. rewrite O in A, B. rewrite E in B. exact (K A B). Qed.

  Lemma step_func1 p w f a i : clients s c = CFunc p w f a i ->
    inv n m (st_c (st_p s p (mkPort (work (ports s p)) (reqsem (ports s p)) (runsem (ports s p)) (donesem (ports s p))
      f (args (ports s p)) (wait (ports s p)) (result (ports s p)) (gid (ports s p)))) c (CArgs p w f a i)) own loc.
  Proof.
    intros E. destruct (client_at _ E) as (Lp & O & Li & N). apply (port_at p _ O Lp E). intros A (_ & B & D).
    apply both; [exact O|exact Lp|reflexivity|rewrite E; reflexivity| |cbn [cinv]; auto].
    rewrite O. split; [exact A|]. rewrite upd_eq. cbn [work reqsem donesem func]. auto.
  Qed.
  Lemma step_args1 p w f a i : clients s c = CArgs p w f a i ->
    inv n m (st_c (st_p s p (mkPort (work (ports s p)) (reqsem (ports s p)) (runsem (ports s p)) (donesem (ports s p))
      (func (ports s p)) a (wait (ports s p)) (result (ports s p)) (gid (ports s p)))) c (CWait p w f a i)) own loc.
  Proof.
    intros E. destruct (client_at _ E) as (Lp & O & Li & N). apply (port_at p _ O Lp E). intros A (_ & B & D & F).
    apply both; [exact O|exact Lp|reflexivity|rewrite E; reflexivity| |cbn [cinv]; auto].
    rewrite O. split; [exact A|]. rewrite upd_eq. unfold still in *. cbn [work reqsem donesem func args]. auto.
  Qed.
  Lemma step_wait1 p w f a i : clients s c = CWait p w f a i ->
    inv n m (st_c (st_p s p (mkPort (work (ports s p)) (reqsem (ports s p)) (runsem (ports s p)) (donesem (ports s p))
      (func (ports s p)) (args (ports s p)) w (result (ports s p)) (gid (ports s p)))) c (CPost p w f a i)) own loc.
  Proof.
    intros E. destruct (client_at _ E) as (Lp & O & Li & N). apply (port_at p _ O Lp E). intros A (_ & B & D & F & G).
    apply both; [exact O|exact Lp|reflexivity|rewrite E; reflexivity| |cbn [cinv]; auto].
    rewrite O. split; [exact A|]. rewrite upd_eq. unfold still in *. cbn [work reqsem donesem func args wait]. auto 10.
  Qed.
  Lemma step_done1 p i : clients s c = QDone p i -> 0 < donesem (ports s p) ->
    inv n m (st_c (st_p s p (mkPort (work (ports s p)) (reqsem (ports s p)) (runsem (ports s p)) (donesem (ports s p) - 1)
      (func (ports s p)) (args (ports s p)) (wait (ports s p)) (result (ports s p)) (gid (ports s p)))) c (QRead p i)) own loc.
  Proof.
    intros E Dn. destruct (client_at _ E) as (Lp & O). apply (port_at p _ O Lp E). intros A0 (_ & G & Wt & N & S).
    apply both; [exact O|exact Lp|reflexivity|rewrite E; reflexivity| |cbn [cinv]; auto].
    rewrite O. split; [exact A0|]. rewrite upd_eq. split; [reflexivity|]. unfold answered, still. cbn [work reqsem donesem func args wait result].
    unfold stage, still in S. stage_cases S; try lia. split; [exact E0|]. split; [split; [exact A|lia]|]. split; [exact C|].
    exists (func (ports s p)), (args (ports s p)). auto.
  Qed.
  Lemma st_p_same p : forall t, ports (st_p s p (ports s p)) t = ports s t.
  Proof. intros t. cbn [st_p ports]. destruct (Nat.eq_dec t p) as [->|N]; [apply upd_eq|apply upd_neq; exact N]. Qed.
  (** only the client changes *)
  Lemma client_only C' : isPop C' = isPop (clients s c) ->
    (forall p, own p = OClient c -> p < m -> pinv (ports s p) p (OClient c) (upd (clients s) c C') (pend s p) loc (runs s) (calls s)) ->
    cinv m c C' own loc (calls s) -> inv n m (st_c s c C') own loc.
  Proof.
    intros IC HP HC. pose proof H as (I1 & I2 & I3 & I4 & I5 & I6).
    split; [|split; [|split; [|split; [|split]]]]; cbn [st_c ports clients pend runs calls rets crashed]; try assumption.
    - intros p Lp. destruct (own p) as [| |d| |] eqn:O.
      1, 2, 4, 5: rewrite <- O; apply (pinv_frame (ports s p) p (own p) (clients s) (upd (clients s) c C') (pend s p) loc loc (runs s) (runs s) (calls s) (calls s) (I1 p Lp)); auto using incl_refl, more_refl; intros d E; congruence.
      destruct (Nat.eq_dec d c) as [->|Nd]; [exact (HP p O Lp)|]. rewrite <- O.
      apply (pinv_frame (ports s p) p (own p) (clients s) (upd (clients s) c C') (pend s p) loc loc (runs s) (runs s) (calls s) (calls s) (I1 p Lp)); auto using incl_refl, more_refl.
      intros e E. apply upd_neq. congruence.
    - intros d Ld. destruct (Nat.eq_dec d c) as [->|Nd]; [rewrite upd_eq; exact HC|]. rewrite upd_neq by exact Nd. exact (I3 d Ld).
    - destruct I5 as (F1 & F2 & F3). split; [exact F1|]. split; [exact F2|]. cbn [st_c free freesem clients ports].
      rewrite (cnt_same isPop) by exact IC. exact F3.
  Qed.
  Lemma step_read1 p i : clients s c = QRead p i -> inv n m (st_c s c (QAck p i (result (ports s p)))) own loc.
  Proof.
    intros E. destruct (client_at _ E) as (Lp & O). apply (port_at p _ O Lp E). intros A0 (_ & G).
    apply client_only; [rewrite E; reflexivity| |cbn [cinv]; auto].
    intros q Oq Lq. pose proof (tied n m s own loc c q H Lq Oq) as T. rewrite E in T. cbn [tok] in T. injection T as <-.
    split; [exact A0|]. rewrite upd_eq. auto.
  Qed.
  Lemma no_port : tok (clients s c) = None -> forall p, own p = OClient c -> p < m -> forall Q : Prop, Q.
  Proof. intros T p O Lp Q. rewrite (tied n m s own loc c p H Lp O) in T. discriminate. Qed.

  Lemma step_call1 w f a : clients s c = CIdle ->
    exists loc', inv n m (log_call (st_c s c (CFree w f a (length (calls s)))) (w, f, a)) own loc'.
  Proof.
    intros E. pose proof H as (I1 & I2 & I3 & I4 & I5 & I6). exists (upd loc (length (calls s)) (LClient c)).
    destruct I4 as (G1 & G2 & G3 & G4 & G5).
    assert (New : loc (length (calls s)) = LNew) by (apply G5; apply Nat.le_refl).
    assert (Oth : forall i, loc i <> LNew -> upd loc (length (calls s)) (LClient c) i = loc i) by (intros i X; apply upd_neq; congruence).
    assert (NP : forall p, own p = OClient c -> p < m -> forall Q : Prop, Q) by (apply no_port; rewrite E; reflexivity).
    split; [|split; [|split; [|split; [|split]]]]; cbn [log_call st_c ports clients pend runs calls rets crashed]; try assumption.
    - intros p Lp. apply (pinv_frame (ports s p) p (own p) (clients s) _ (pend s p) loc _ (runs s) (runs s) (calls s) _ (I1 p Lp)); auto using incl_refl, more_app.
      + intros d O. apply upd_neq. intros ->. exact (NP p O Lp _).
      + intros i [X|X]; apply Oth; congruence.
    - intros d Ld. destruct (Nat.eq_dec d c) as [->|Nd].
      + rewrite upd_eq. cbn [cinv]. split; [apply upd_eq|]. rewrite nth_error_app2 by apply Nat.le_refl. rewrite Nat.sub_diag. reflexivity.
      + rewrite upd_neq by exact Nd. apply (cinv_frame m d (clients s d) own own loc _ (calls s) _ (I3 d Ld)); auto using more_app.
        intros i X. rewrite Oth by congruence. exact X.
    - split; [|split; [|split; [|split]]].
      + intros i f' a' v X. destruct (G1 i f' a' v X) as [Y (w' & Z)]. split; [|exists w'; apply more_app; exact Z].
        rewrite Oth; [exact Y|]. destruct Y as [(q & Y)|Y]; congruence.
      + exact G2.
      + intros i v X. destruct (G3 i v X) as (Y & f' & a' & Z1 & Z2). split; [rewrite Oth; congruence|]. exists f', a'. split; [apply more_app; exact Z1|exact Z2].
      + exact G4.
      + intros i Li. rewrite app_length in Li. cbn [length] in Li. rewrite upd_neq by lia. apply G5. lia.
    - destruct I5 as (F1 & F2 & F3). split; [exact F1|]. split; [exact F2|]. cbn [log_call st_c free freesem clients ports].
      rewrite (cnt_same isPop); [exact F3|]. rewrite E. reflexivity.
  Qed.
  Lemma step_free1 w f a i : clients s c = CFree w f a i -> 0 < freesem s ->
    inv n m (set_free (st_c s c (CPop w f a i)) (free s) (freesem s - 1)) own loc.
  Proof.
    intros E L0. pose proof H as (I1 & I2 & I3 & I4 & I5 & I6). pose proof (client_at _ E) as Ci.
    assert (NP : forall p, own p = OClient c -> p < m -> forall Q : Prop, Q) by (apply no_port; rewrite E; reflexivity).
    split; [|split; [|split; [|split; [|split]]]]; cbn [set_free st_c ports clients pend runs calls rets crashed]; try assumption.
    - intros p Lp. apply (pinv_frame (ports s p) p (own p) (clients s) _ (pend s p) loc _ (runs s) (runs s) (calls s) _ (I1 p Lp)); auto using incl_refl, more_refl.
      intros d O. apply upd_neq. intros ->. exact (NP p O Lp _).
    - intros d Ld. destruct (Nat.eq_dec d c) as [->|Nd]; [rewrite upd_eq; exact Ci|]. rewrite upd_neq by exact Nd. exact (I3 d Ld).
    - destruct I5 as (F1 & F2 & F3). split; [exact F1|]. split; [exact F2|]. cbn [set_free st_c free freesem clients ports].
      pose proof (cnt_upd isPop (clients s) c (CPop w f a i) n Lc) as X. rewrite E in X. cbn [isPop b2n] in X. lia.
  Qed.
  Lemma free_nonempty w f a i : clients s c = CPop w f a i -> free s <> [].
  Proof.
    intros E X. destruct H as (_ & _ & _ & _ & (_ & _ & F3) & _). rewrite X in F3. cbn [length] in F3.
    pose proof (cnt_pos isPop (clients s) n c Lc ltac:(rewrite E; reflexivity)). lia.
  Qed.
  Lemma step_pop1 w f a i p l : clients s c = CPop w f a i -> free s = p :: l ->
    exists own', inv n m (set_free (st_c s c (CFunc p w f a i)) l (freesem s)) own' loc.
  Proof.
    intros E Ef. pose proof H as (I1 & I2 & I3 & I4 & (F1 & F2 & F3) & I6). pose proof (client_at _ E) as (C1 & C2).
    assert (NP : forall q, own q = OClient c -> q < m -> forall Q : Prop, Q) by (apply no_port; rewrite E; reflexivity).
    destruct (F2 p) as [Lp O]; [rewrite Ef; left; reflexivity|]. rewrite Ef in F1. inversion F1 as [|x y Nin N1]; subst x y.
    exists (upd own p (OClient c)).
    apply (assemble n m s (set_free (st_c s c (CFunc p w f a i)) l (freesem s)) own (upd own p (OClient c)) loc loc p c H);
      cbn [set_free st_c ports clients pend runs calls rets crashed]; auto using incl_refl, more_refl.
    - intros q Nq. rewrite upd_neq by exact Nq. auto.
    - intros d Nd. apply upd_neq. exact Nd.
    - intros q Lq Nq Oq. exact (NP q Oq Lq _).
    - intros d Nd Od. congruence.
    - intros d Ed. rewrite upd_eq in Ed. congruence.
    - intros _. rewrite upd_eq. destruct (I1 p Lp) as [A B]. rewrite O in A, B. split; [intros X; discriminate (A X)|]. rewrite upd_eq. tauto.
    - intros _. rewrite upd_eq. cbn [cinv]. rewrite upd_eq. auto.
    - split; [exact N1|]. split.
      + cbn [set_free st_c free]. intros q Hq. destruct (F2 q) as [Lq Oq]; [rewrite Ef; right; exact Hq|]. split; [exact Lq|]. rewrite upd_neq; [exact Oq|].
        intros ->. contradiction.
      + cbn [set_free st_c free freesem clients ports]. rewrite Ef in F3. cbn [length] in F3.
        pose proof (cnt_upd isPop (clients s) c (CFunc p w f a i) n Lc) as X. rewrite E in X. cbn [isPop b2n] in X. lia.
  Qed.
  Lemma step_post1 p w f a i : clients s c = CPost p w f a i ->
    exists own' loc', inv n m (st_c (st_p s p (mkPort (work (ports s p)) (S (reqsem (ports s p))) (runsem (ports s p)) (donesem (ports s p))
      (func (ports s p)) (args (ports s p)) (wait (ports s p)) (result (ports s p)) i)) c (CRun p w i)) own' loc'.
  Proof.
    intros E. pose proof H as (I1 & I2 & I3 & I4 & I5 & I6). destruct (client_at _ E) as (Lp & O & Li & N).
    apply (port_at p _ O Lp E). intros A (_ & B & (D1 & D2) & F & G & W).
    set (o := if w then OClient c else ONone). exists (upd own p o), (upd loc i (LPort p)).
    match goal with |- inv n m ?x _ _ => apply (assemble n m s x own (upd own p o) loc (upd loc i (LPort p)) p c H) end;
      cbn [st_c st_p ports clients pend runs calls rets crashed]; auto using incl_refl, more_refl.
    - intros q Nq. rewrite !upd_neq by exact Nq. auto.
    - intros d Nd. apply upd_neq. exact Nd.
    - intros q Lq Nq Oq. pose proof (tied n m s own loc c q H Lq Oq) as T. rewrite E in T. cbn [tok] in T. congruence.
    - intros d Nd Od. congruence.
    - intros d Ed. rewrite upd_eq in Ed. unfold o in Ed. destruct w; [congruence|discriminate].
    - intros j q Hj Nq. apply upd_neq. intros ->. destruct Hj; congruence.
    - intros j d Hj Nd. apply upd_neq. intros ->. congruence.
    - intros _. rewrite !upd_eq.
      assert (Act : active (mkPort (work (ports s p)) (S (reqsem (ports s p))) (runsem (ports s p)) (donesem (ports s p))
        (func (ports s p)) (args (ports s p)) (wait (ports s p)) (result (ports s p)) i) p i w (upd loc i (LPort p)) (runs s) (calls s)).
      { split; [reflexivity|]. split; [exact W|]. cbn [func args]. split; [rewrite F, G; exact N|]. left. cbn [work reqsem donesem]. split; [exact B|].
        split; [lia|]. split; [exact D2|apply upd_eq]. }
      split; [intros X; discriminate (A X)|]. unfold o. destruct w; [|left; exists i; exact Act]. rewrite upd_eq. auto.
    - intros _. rewrite upd_eq. cbn [cinv]. split; [exact Lp|]. intros ->. rewrite upd_eq. reflexivity.
    - destruct I4 as (G1 & G2 & G3 & G4 & G5). split; [|split; [|split; [|split]]].
      + intros j f' a' v X. destruct (G1 j f' a' v X) as [Y Z]. split; [|exact Z]. rewrite upd_neq; [exact Y|]. intros ->. destruct Y as [(q & Y)|Y]; congruence.
      + exact G2.
      + intros j v X. destruct (G3 j v X) as (Y & Z). split; [|exact Z]. rewrite upd_neq; [exact Y|]. intros ->. congruence.
      + exact G4.
      + intros j Lj. rewrite upd_neq; [exact (G5 j Lj)|]. intros ->. rewrite (G5 i Lj) in Li. discriminate.
    - destruct I5 as (F1 & F2 & F3). split; [exact F1|]. split.
      + cbn [st_c st_p free]. intros q Hq. destruct (F2 q Hq) as [Lq Oq]. split; [exact Lq|]. rewrite upd_neq; [exact Oq|]. intros ->. congruence.
      + cbn [st_c st_p free freesem clients ports]. rewrite (cnt_same isPost) by reflexivity. rewrite (cnt_same isPop) by (rewrite E; reflexivity). exact F3.
  Qed.
  Lemma step_run1 p (w : bool) i : clients s c = CRun p w i ->
    exists own', inv n m (set_pend (st_c (st_p s p (mkPort (work (ports s p)) (reqsem (ports s p)) (runsem (ports s p) - 1) (donesem (ports s p))
      (func (ports s p)) (args (ports s p)) (wait (ports s p)) (result (ports s p)) (gid (ports s p)))) c CIdle)
      p (if w then Some i else pend s p)) own' loc.
  Proof.
    intros E. pose proof H as (I1 & I2 & I3 & I4 & I5 & I6). destruct (client_at _ E) as (Lp & O).
    set (o := if w then OPend else own p). exists (upd own p o).
    assert (Oc : forall q, q < m -> own q = OClient c -> w = true /\ q = p).
    { intros q Lq Oq. pose proof (tied n m s own loc c q H Lq Oq) as T. rewrite E in T. cbn [tok] in T. destruct w; [|discriminate]. split; [reflexivity|congruence]. }
    match goal with |- inv n m ?x _ _ => apply (assemble n m s x own (upd own p o) loc loc p c H) end;
      cbn [set_pend st_c st_p ports clients pend runs calls rets crashed]; auto using incl_refl, more_refl.
    - intros q Nq. rewrite !upd_neq by exact Nq. auto.
    - intros d Nd. apply upd_neq. exact Nd.
    - intros q Lq Nq Oq. destruct (Oc q Lq Oq). contradiction.
    - intros d Nd Od. rewrite upd_eq. unfold o. destruct w; [rewrite (O eq_refl) in Od; congruence|exact Od].
    - intros d Ed. rewrite upd_eq in Ed. unfold o in Ed. destruct w; [discriminate|]. exact (I2 p d Ed).
    - intros _. rewrite !upd_eq. unfold o. destruct w.
      + apply (port_at p _ (O eq_refl) Lp E). intros _ (_ & _ & Act). split; [reflexivity|]. exists i. split; [reflexivity|exact Act].
      + destruct (I1 p Lp) as [A B].
        assert (X : pinv (ports s p) p (own p) (upd (clients s) c CIdle) (pend s p) loc (runs s) (calls s)).
        { apply (pinv_frame _ _ _ _ _ _ _ _ _ _ _ _ (I1 p Lp)); auto using incl_refl, more_refl. intros d Od. apply upd_neq. intros ->.
          destruct (Oc p Lp Od). discriminate. }
        exact X.
    - intros _. rewrite upd_eq. exact Logic.I.
    - destruct I5 as (F1 & F2 & F3). split; [exact F1|]. split.
      + cbn [set_pend st_c st_p free]. intros q Hq. destruct (F2 q Hq) as [Lq Oq]. split; [exact Lq|]. destruct (Nat.eq_dec q p) as [->|Nq]; [|rewrite upd_neq; assumption].
        rewrite upd_eq. unfold o. destruct w; [rewrite (O eq_refl) in Oq; discriminate|exact Oq].
      + cbn [set_pend st_c st_p free freesem clients ports]. rewrite (cnt_same isPost) by reflexivity. rewrite (cnt_same isPop) by (rewrite E; reflexivity). exact F3.
  Qed.
  Lemma pend_wait p i : p < m -> pend s p = Some i -> own p = OPend /\ active (ports s p) p i true loc (runs s) (calls s).
  Proof.
    intros Lp Ep. destruct H as (I1 & _). destruct (I1 p Lp) as [A B]. rewrite Ep in A, B. rewrite (A ltac:(discriminate)) in B |- *. split; [reflexivity|].
    destruct B as (j & Ej & B). injection Ej as <-. exact B.
  Qed.
  Lemma step_qcall1 p i : clients s c = CIdle -> p < m -> pend s p = Some i ->
    exists own', inv n m (if wait (ports s p) then set_pend (st_c s c (QDone p i)) p None else crash s) own' loc.
  Proof.
    intros E Lp Ep. pose proof H as (I1 & I2 & I3 & I4 & I5 & I6). destruct (pend_wait p i Lp Ep) as [O Act].
    destruct Act as (G & Wt & N & S). rewrite Wt. exists (upd own p (OClient c)).
    assert (NP : forall q, own q = OClient c -> q < m -> forall Q : Prop, Q) by (apply no_port; rewrite E; reflexivity).
    match goal with |- inv n m ?x _ _ => apply (assemble n m s x own (upd own p (OClient c)) loc loc p c H) end;
      cbn [set_pend st_c st_p ports clients pend runs calls rets crashed]; auto using incl_refl, more_refl.
    - intros q Nq. rewrite !upd_neq by exact Nq. auto.
    - intros d Nd. apply upd_neq. exact Nd.
    - intros q Lq Nq Oq. exact (NP q Oq Lq _).
    - intros d Nd Od. congruence.
    - intros d Ed. rewrite upd_eq in Ed. congruence.
    - intros _. rewrite !upd_eq. split; [congruence|]. rewrite upd_eq. split; [reflexivity|]. split; [exact G|]. auto.
    - intros _. rewrite upd_eq. cbn [cinv]. rewrite upd_eq. auto.
    - destruct I5 as (F1 & F2 & F3). split; [exact F1|]. split.
      + cbn [set_pend st_c st_p free]. intros q Hq. destruct (F2 q Hq) as [Lq Oq]. split; [exact Lq|]. rewrite upd_neq; [exact Oq|]. intros ->. congruence.
      + cbn [set_pend st_c free freesem clients ports]. rewrite (cnt_same isPop) by (rewrite E; reflexivity). exact F3.
  Qed.
  Lemma step_ack1 p i v : clients s c = QAck p i v ->
    exists own' loc', inv n m (log_ret (st_c (st_p s p (mkPort (work (ports s p)) (S (reqsem (ports s p))) (runsem (ports s p)) (donesem (ports s p))
      (func (ports s p)) (args (ports s p)) (wait (ports s p)) (result (ports s p)) (gid (ports s p)))) c CIdle) (i, v)) own' loc'.
  Proof.
    intros E. pose proof H as (I1 & I2 & I3 & I4 & I5 & I6). destruct (client_at _ E) as (Lp & O).
    apply (port_at p _ O Lp E). intros A (_ & B & (D1 & D2) & Li & f & a & N & In1).
    exists (upd own p ONone), (upd loc i LRet).
    match goal with |- inv n m ?x _ _ => apply (assemble n m s x own (upd own p ONone) loc (upd loc i LRet) p c H) end;
      cbn [log_ret st_c st_p ports clients pend runs calls rets crashed]; auto using incl_refl, more_refl.
    - intros q Nq. rewrite !upd_neq by exact Nq. auto.
    - intros d Nd. apply upd_neq. exact Nd.
    - intros q Lq Nq Oq. pose proof (tied n m s own loc c q H Lq Oq) as T. rewrite E in T. cbn [tok] in T. congruence.
    - intros d Nd Od. congruence.
    - intros d Ed. rewrite upd_eq in Ed. discriminate.
    - intros j q Hj Nq. apply upd_neq. intros ->. destruct Hj; congruence.
    - intros j d Hj Nd. apply upd_neq. intros ->. congruence.
    - intros _. rewrite !upd_eq. split; [intros X; discriminate (A X)|]. right. cbn [work reqsem donesem]. split; [exact B|]. split; [lia|exact D2].
    - intros _. rewrite upd_eq. exact Logic.I.
    - destruct I4 as (G1 & G2 & G3 & G4 & G5). split; [|split; [|split; [|split]]].
      + intros j f' a' u X. destruct (G1 j f' a' u X) as [Y Z]. split; [|exact Z]. destruct (Nat.eq_dec j i) as [->|Nj]; [right; apply upd_eq|rewrite upd_neq by exact Nj; exact Y].
      + exact G2.
      + intros j u [X|X].
        * injection X as <- <-. split; [apply upd_eq|]. exists f, a. auto.
        * destruct (G3 j u X) as (Y & Z). split; [|exact Z]. rewrite upd_neq; [exact Y|]. intros ->. congruence.
      + cbn [map fst]. constructor; [|exact G4]. intros X. apply in_map_iff in X as ([j u] & E1 & X). cbn [fst] in E1. subst j.
        destruct (G3 i u X) as [Y _]. congruence.
      + intros j Lj. rewrite upd_neq; [exact (G5 j Lj)|]. intros ->. rewrite (G5 i Lj) in Li. discriminate.
    - destruct I5 as (F1 & F2 & F3). split; [exact F1|]. split.
      + cbn [log_ret st_c st_p free]. intros q Hq. destruct (F2 q Hq) as [Lq Oq]. split; [exact Lq|]. rewrite upd_neq; [exact Oq|]. intros ->. congruence.
      + cbn [log_ret st_c st_p free freesem clients ports]. rewrite (cnt_same isPost) by reflexivity. rewrite (cnt_same isPop) by (rewrite E; reflexivity). exact F3.
  Qed.
End Clients.

Lemma inv_init n m : inv n m init (fun _ => OIdle) (fun _ => LNew).
Proof.
  split; [|split; [|split; [|split; [|split]]]].
  - intros p _. split; [intros X; exfalso; apply X; reflexivity|]. split; [left; reflexivity|split; reflexivity].
  - discriminate.
  - intros c _. exact I.
  - split; [intros i f a v []|]. split; [constructor|]. split; [intros i v []|]. split; [constructor|]. reflexivity.
  - split; [constructor|]. split; [intros p []|]. cbn [init free freesem clients ports length].
    assert (X : cnt isPop (fun _ => CIdle) n = 0) by (induction n as [|k IH]; [reflexivity|cbn [cnt]; rewrite IH; reflexivity]).
    assert (Y : cnt isPost (fun _ => port0) m = 0) by (induction m as [|k IH]; [reflexivity|cbn [cnt]; rewrite IH; reflexivity]).
    rewrite X, Y. reflexivity.
  - reflexivity.
Qed.
Lemma inv_step n m s s' own loc : inv n m s own loc -> step n m s s' -> exists own' loc', inv n m s' own' loc'.
Proof.
  intros H St. destruct St as [p s Lp W|p s Lp W|p s Lp W R|p s Lp W|p s Lp W|p a s Lp W|p f a v s Lp W|p v s Lp W|p s Lp W|p s Lp W|p s Lp W R
    |c w f a s Lc E|c w f a i s Lc E F|c w f a i p l s Lc E F|c w f a i s Lc E F|c p w f a i s Lc E|c p w f a i s Lc E|c p w f a i s Lc E|c p w f a i s Lc E|c p w i s Lc E R
    |c p i s Lc Lp E Pe|c p i s Lc E D|c p i s Lc E|c p i v s Lc E].
  - destruct (step_push n m s own loc p H Lp W) as (o & X). exists o, loc. exact X.
  - exists own, loc. exact (step_wpost n m s own loc p H Lp W).
  - exists own, loc. exact (step_wait n m s own loc p H Lp W R).
  - exists own, loc. exact (step_copy n m s own loc p H Lp W).
  - exists own, loc. exact (step_args n m s own loc p H Lp W).
  - exists own, loc. exact (step_func n m s own loc p H Lp a W).
  - destruct (step_run n m s own loc p H Lp f a v W) as (l & X). exists own, l. exact X.
  - exists own, loc. exact (step_store n m s own loc p H Lp v W).
  - destruct (step_test n m s own loc p H Lp W) as (o & X). exists o, loc. exact X.
  - exists own, loc. exact (step_done n m s own loc p H Lp W).
  - destruct (step_ack n m s own loc p H Lp W R) as (o & X). exists o, loc. exact X.
  - destruct (step_call1 n m s own loc c H Lc w f a E) as (l & X). exists own, l. exact X.
  - exists own, loc. exact (step_free1 n m s own loc c H Lc w f a i E F).
  - destruct (step_pop1 n m s own loc c H Lc w f a i p l E F) as (o & X). exists o, loc. exact X.
  - exfalso. exact (free_nonempty n m s own loc c H Lc w f a i E F).
  - exists own, loc. exact (step_func1 n m s own loc c H Lc p w f a i E).
  - exists own, loc. exact (step_args1 n m s own loc c H Lc p w f a i E).
  - exists own, loc. exact (step_wait1 n m s own loc c H Lc p w f a i E).
  - destruct (step_post1 n m s own loc c H Lc p w f a i E) as (o & l & X). exists o, l. exact X.
  - destruct (step_run1 n m s own loc c H Lc p w i E) as (o & X). exists o, loc. exact X.
  - destruct (step_qcall1 n m s own loc c H Lc p i E Lp Pe) as (o & X). exists o, loc. exact X.
  - exists own, loc. exact (step_done1 n m s own loc c H Lc p i E D).
  - exists own, loc. exact (step_read1 n m s own loc c H Lc p i E).
  - destruct (step_ack1 n m s own loc c H Lc p i v E) as (o & l & X). exists o, l. exact X.
Qed.
Theorem inv_reachable n m s : reachable n m s -> exists own loc, inv n m s own loc.
Proof.
  intros H. induction H as [|s s' _ (own & loc & IH) St]; [exists (fun _ => OIdle), (fun _ => LNew); apply inv_init|exact (inv_step n m s s' own loc IH St)].
Qed.
