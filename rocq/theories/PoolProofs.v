(** The invariant of the thread pool. *)
From Verif Require Import PoolModel LockProofs.

(** who may touch a port, and where a request is *)
Inductive who := OIdle | OFree | OClient (c : nat) | OPend | ONone.
Inductive place := LNew | LClient (c : nat) | LPort (p : nat) | LRan (p : nat) | LRet.

Definition pre (w : wpc) : Prop := w = WPost \/ w = WWait.
Definition still (P : port) : Prop := reqsem P = 0 /\ donesem P = 0.
Definition stage (P : port) (p i : nat) (w : bool) (loc : nat -> place) (rs : list (nat * nat * nat * nat)) : Prop :=
  (pre (work P) /\ reqsem P = 1 /\ donesem P = 0 /\ loc i = LPort p) \/
  (still P /\ loc i = LPort p /\ (work P = WCopy \/ work P = WArgs \/ work P = WFunc (args P) \/ work P = WRun (func P) (args P))) \/
  (still P /\ loc i = LRan p /\ exists v, work P = WStore v /\ In (i, func P, args P, v) rs) \/
  (still P /\ loc i = LRan p /\ In (i, func P, args P, result P) rs /\ (work P = WTest \/ (w = true /\ work P = WDone))) \/
  (w = true /\ reqsem P = 0 /\ donesem P = 1 /\ loc i = LRan p /\ In (i, func P, args P, result P) rs /\ work P = WAck).
Definition active (P : port) (p i : nat) (w : bool) (loc : nat -> place) rs (cs : list (bool * nat * nat)) : Prop :=
  gid P = i /\ wait P = w /\ nth_error cs i = Some (w, func P, args P) /\ stage P p i w loc rs.
Definition answered (P : port) (p i v : nat) (loc : nat -> place) (rs : list (nat * nat * nat * nat)) (cs : list (bool * nat * nat)) : Prop :=
  work P = WAck /\ still P /\ loc i = LRan p /\ exists f a, nth_error cs i = Some (true, f, a) /\ In (i, f, a, v) rs.

Definition pinv (P : port) (p : nat) (o : who) (cl : nat -> cpc) (pe : option nat) (loc : nat -> place) rs cs : Prop :=
  (pe <> None -> o = OPend) /\
  match o with
  | OIdle => (work P = WStart \/ work P = WPush) /\ still P
  | OFree => pre (work P) /\ still P
  | OClient c =>
      match cl c with
      | CFunc q w f a i => q = p /\ pre (work P) /\ still P
      | CArgs q w f a i => q = p /\ pre (work P) /\ still P /\ func P = f
      | CWait q w f a i => q = p /\ pre (work P) /\ still P /\ func P = f /\ args P = a
      | CPost q w f a i => q = p /\ pre (work P) /\ still P /\ func P = f /\ args P = a /\ wait P = w
      | CRun q w i => q = p /\ w = true /\ active P p i true loc rs cs
      | QDone q i => q = p /\ active P p i true loc rs cs
      | QRead q i => q = p /\ answered P p i (result P) loc rs cs
      | QAck q i v => q = p /\ answered P p i v loc rs cs
      | _ => False
      end
  | OPend => exists i, pe = Some i /\ active P p i true loc rs cs
  | ONone => (exists i, active P p i false loc rs cs) \/ (work P = WAck /\ reqsem P = 1 /\ donesem P = 0)
  end.
Definition cinv (m c : nat) (C : cpc) (own : nat -> who) (loc : nat -> place) (cs : list (bool * nat * nat)) : Prop :=
  match C with
  | CIdle => True
  | CFree w f a i | CPop w f a i => loc i = LClient c /\ nth_error cs i = Some (w, f, a)
  | CFunc p w f a i | CArgs p w f a i | CWait p w f a i | CPost p w f a i =>
      p < m /\ own p = OClient c /\ loc i = LClient c /\ nth_error cs i = Some (w, f, a)
  | CRun p w i => p < m /\ (w = true -> own p = OClient c)
  | QDone p i | QRead p i | QAck p i _ => p < m /\ own p = OClient c
  end.
Definition idof (x : nat * nat * nat * nat) : nat := fst (fst (fst x)).
(** the logs *)
Definition ginv (loc : nat -> place) (cs : list (bool * nat * nat)) rs (ts : list (nat * nat)) : Prop :=
  (forall i f a v, In (i, f, a, v) rs -> ((exists p, loc i = LRan p) \/ loc i = LRet) /\ exists w, nth_error cs i = Some (w, f, a)) /\
  NoDup (map idof rs) /\
  (forall i v, In (i, v) ts -> loc i = LRet /\ exists f a, nth_error cs i = Some (true, f, a) /\ In (i, f, a, v) rs) /\
  NoDup (map fst ts) /\
  (forall i, length cs <= i -> loc i = LNew).
Definition isPop (C : cpc) : bool := match C with CPop _ _ _ _ => true | _ => false end.
Definition isPost (P : port) : bool := match work P with WPost => true | _ => false end.
Definition finv (n m : nat) (s : st) (own : nat -> who) : Prop :=
  NoDup (free s) /\ (forall p, In p (free s) -> p < m /\ own p = OFree) /\
  length (free s) = freesem s + cnt isPop (clients s) n + cnt isPost (ports s) m.

Definition inv (n m : nat) (s : st) (own : nat -> who) (loc : nat -> place) : Prop :=
  (forall p, p < m -> pinv (ports s p) p (own p) (clients s) (pend s p) loc (runs s) (calls s)) /\
  (forall p c, own p = OClient c -> c < n) /\
  (forall c, c < n -> cinv m c (clients s c) own loc (calls s)) /\
  ginv loc (calls s) (runs s) (rets s) /\ finv n m s own /\ crashed s = false.

Definition more (cs cs' : list (bool * nat * nat)) : Prop := forall i x, nth_error cs i = Some x -> nth_error cs' i = Some x.
Lemma more_refl cs : more cs cs. Proof. intros i x H. exact H. Qed.
Lemma more_app cs l : more cs (cs ++ l).
Proof. intros i x H. rewrite nth_error_app1; [exact H|]. apply nth_error_Some. congruence. Qed.

Lemma active_frame P p i w loc loc' rs rs' cs cs' : active P p i w loc rs cs ->
  (loc i = LPort p \/ loc i = LRan p -> loc' i = loc i) -> incl rs rs' -> more cs cs' -> active P p i w loc' rs' cs'.
Proof.
  intros (G & W & N & S) L R M. split; [exact G|]. split; [exact W|]. split; [apply M; exact N|]. unfold stage in *.
  destruct S as [(A & B & C & D)|[(A & D & B)|[(A & D & v & B & C)|[(A & D & B & C)|(A & B & C & D & E & F)]]]].
  - left. rewrite L by tauto. tauto.
  - right; left. rewrite L by tauto. tauto.
  - right; right; left. rewrite L by tauto. split; [exact A|]. split; [exact D|]. exists v. split; [exact B|apply R; exact C].
  - right; right; right; left. rewrite L by tauto. split; [exact A|]. split; [exact D|]. split; [apply R; exact B|exact C].
  - right; right; right; right. rewrite L by tauto. apply R in E. tauto.
Qed.
Lemma answered_frame P p i v loc loc' rs rs' cs cs' : answered P p i v loc rs cs ->
  (loc i = LPort p \/ loc i = LRan p -> loc' i = loc i) -> incl rs rs' -> more cs cs' -> answered P p i v loc' rs' cs'.
Proof.
  intros (A & B & C & f & a & D & E) L R M. split; [exact A|]. split; [exact B|]. rewrite L by tauto. split; [exact C|].
  exists f, a. split; [apply M; exact D|apply R; exact E].
Qed.
Lemma pinv_frame P p o cl cl' pe loc loc' rs rs' cs cs' : pinv P p o cl pe loc rs cs ->
  (forall c, o = OClient c -> cl' c = cl c) ->
  (forall i, loc i = LPort p \/ loc i = LRan p -> loc' i = loc i) -> incl rs rs' -> more cs cs' -> pinv P p o cl' pe loc' rs' cs'.
Proof.
  intros [H0 H] C L R M. split; [exact H0|]. destruct o as [| |c| |].
  - exact H.
  - exact H.
  - rewrite (C c eq_refl). destruct (cl c); try exact H.
    + destruct H as (A & B & D). split; [exact A|]. split; [exact B|]. eapply active_frame; eauto.
    + destruct H as (A & D). split; [exact A|]. eapply active_frame; eauto.
    + destruct H as (A & D). split; [exact A|]. eapply answered_frame; eauto.
    + destruct H as (A & D). split; [exact A|]. eapply answered_frame; eauto.
  - destruct H as (i & A & D). exists i. split; [exact A|]. eapply active_frame; eauto.
  - destruct H as [(i & D)|H]; [left|right; exact H]. exists i. eapply active_frame; eauto.
Qed.
Lemma cinv_frame m c C own own' loc loc' cs cs' : cinv m c C own loc cs ->
  (forall q, own q = OClient c -> own' q = OClient c) -> (forall i, loc i = LClient c -> loc' i = LClient c) -> more cs cs' ->
  cinv m c C own' loc' cs'.
Proof. intros H O L M. destruct C; cbn [cinv] in *; intuition. Qed.

(** assembling the invariant after a step that changes port p and client c *)
Lemma assemble n m s s' own own' loc loc' p c : inv n m s own loc ->
  (forall q, q <> p -> ports s' q = ports s q /\ own' q = own q /\ pend s' q = pend s q) ->
  (forall d, d <> c -> clients s' d = clients s d) ->
  (forall q, q < m -> q <> p -> own q = OClient c -> clients s' c = clients s c) ->
  (forall d, d <> c -> own p = OClient d -> own' p = OClient d) ->
  (forall d, own' p = OClient d -> d < n) ->
  (forall i q, loc i = LPort q \/ loc i = LRan q -> q <> p -> loc' i = loc i) ->
  (forall i d, loc i = LClient d -> d <> c -> loc' i = loc i) ->
  incl (runs s) (runs s') -> more (calls s) (calls s') ->
  (p < m -> pinv (ports s' p) p (own' p) (clients s') (pend s' p) loc' (runs s') (calls s')) ->
  (c < n -> cinv m c (clients s' c) own' loc' (calls s')) ->
  ginv loc' (calls s') (runs s') (rets s') -> finv n m s' own' -> crashed s' = false -> inv n m s' own' loc'.
Proof.
  intros (I1 & I2 & I3 & I4 & I5 & I6) A B C D N E F R M P Q G H K. split; [|split; [|split; [|split; [|split]]]]; try assumption.
  - intros q Lq. destruct (Nat.eq_dec q p) as [->|Nq]; [exact (P Lq)|]. destruct (A q Nq) as (A1 & A2 & A3). rewrite A1, A2, A3.
    apply (pinv_frame (ports s q) q (own q) (clients s) (clients s') (pend s q) loc loc' (runs s) (runs s') (calls s) (calls s') (I1 q Lq)); [| |exact R|exact M].
    + intros d Hd. destruct (Nat.eq_dec d c) as [->|Nd]; [exact (C q Lq Nq Hd)|exact (B d Nd)].
    + intros i Hi. exact (E i q Hi Nq).
  - intros q d Hd. destruct (Nat.eq_dec q p) as [->|Nq]; [exact (N d Hd)|]. destruct (A q Nq) as (_ & A2 & _). rewrite A2 in Hd. exact (I2 q d Hd).
  - intros d Ld. destruct (Nat.eq_dec d c) as [->|Nd]; [exact (Q Ld)|]. rewrite (B d Nd).
    apply (cinv_frame m d (clients s d) own own' loc loc' (calls s) (calls s') (I3 d Ld)); [| |exact M].
    + intros q Hq. destruct (Nat.eq_dec q p) as [->|Nq]; [exact (D d Nd Hq)|]. destruct (A q Nq) as (_ & A2 & _). congruence.
    + intros i Hi. rewrite (F i d Hi Nd). exact Hi.
Qed.

(** ** The worker's steps *)
Definition ctx (p : nat) (o : who) (cl : nat -> cpc) (pe : option nat) (i : nat) (w : bool) : Prop :=
  (pe <> None -> o = OPend) /\
  match o with
  | OClient c => w = true /\ (cl c = CRun p true i \/ cl c = QDone p i)
  | OPend => w = true /\ pe = Some i
  | ONone => w = false
  | _ => False
  end.
Lemma ctx_pinv P p o cl pe loc rs cs i w : ctx p o cl pe i w -> active P p i w loc rs cs -> pinv P p o cl pe loc rs cs.
Proof.
  intros [H0 H] A. split; [exact H0|]. destruct o as [| |c| |]; try contradiction.
  - destruct H as [-> [E|E]]; rewrite E; tauto.
  - destruct H as [-> E]. exists i. tauto.
  - subst w. left. exists i. exact A.
Qed.
(** the worker is at a point where it serves a request *)
Definition serving (P : port) : Prop :=
  match work P with WStart | WPush | WPost | WAck => False | WWait => 0 < reqsem P | _ => True end.
Lemma pinv_serving P p o cl pe loc rs cs : pinv P p o cl pe loc rs cs -> serving P ->
  exists i w, ctx p o cl pe i w /\ active P p i w loc rs cs.
Proof.
  intros [H0 H] V. unfold serving in V.
  assert (X : forall Q : Prop, pre (work P) -> still P -> Q).
  { intros Q [E|E] [S1 _]; rewrite E in V; [contradiction|lia]. }
  destruct o as [| |c| |].
  - destruct H as [[E|E] _]; rewrite E in V; contradiction.
  - destruct H as [E S]. exact (X _ E S).
  - destruct (cl c) as [| | |q w f a i|q w f a i|q w f a i|q w f a i|q w i|q i|q i|q i v] eqn:Ec; try contradiction.
    + apply X; tauto. + apply X; tauto. + apply X; tauto. + apply X; tauto.
    + destruct H as (-> & -> & A). exists i, true. split; [split; [exact H0|]; split; [reflexivity|left; exact Ec]|exact A].
    + destruct H as (-> & A). exists i, true. split; [split; [exact H0|]; split; [reflexivity|right; exact Ec]|exact A].
    + destruct H as (_ & E & _). rewrite E in V. contradiction.
    + destruct H as (_ & E & _). rewrite E in V. contradiction.
  - destruct H as (i & E & A). exists i, true. split; [split; [exact H0|split; [reflexivity|exact E]]|exact A].
  - destruct H as [(i & A)|(E & _)]; [|rewrite E in V; contradiction]. exists i, false. split; [split; [exact H0|reflexivity]|exact A].
Qed.

Lemma cnt_same {A} (Q : A -> bool) f t a n : Q a = Q (f t) -> cnt Q (upd f t a) n = cnt Q f n.
Proof.
  intros H. apply cnt_ext. intros u _. destruct (Nat.eq_dec u t) as [->|N]; [rewrite upd_eq; exact H|rewrite upd_neq by exact N; reflexivity].
Qed.
Lemma own_n n m s own loc p : inv n m s own loc -> own p = OClient n -> False.
Proof. intros (_ & H & _) E. pose proof (H p n E). lia. Qed.

Lemma worker n m s own loc p P' : inv n m s own loc -> p < m -> isPost P' = isPost (ports s p) ->
  pinv P' p (own p) (clients s) (pend s p) loc (runs s) (calls s) -> inv n m (st_p s p P') own loc.
Proof.
  intros H Lp Ip HP. pose proof H as (_ & I2 & _ & I4 & I5 & I6).
  apply (assemble n m s (st_p s p P') own own loc loc p n H); cbn [st_p ports clients pend runs calls rets crashed]; auto using incl_refl, more_refl.
  - intros q Nq. rewrite upd_neq by exact Nq. auto.
  - intros d E. exact (I2 p d E).
  - intros _. rewrite upd_eq. exact HP.
  - intros L. exfalso. exact (Nat.lt_irrefl _ L).
  - destruct I5 as (F1 & F2 & F3). split; [exact F1|]. split; [exact F2|]. cbn [st_p free freesem clients ports].
    rewrite cnt_same by exact Ip. exact F3.
Qed.
(** the owner of the port changes as well, the port not being a client's *)
Lemma worker_own n m s own loc p P' o : inv n m s own loc -> p < m -> isPost P' = isPost (ports s p) ->
  (forall c, own p <> OClient c) -> own p <> OFree -> (forall c, o <> OClient c) ->
  pinv P' p o (clients s) (pend s p) loc (runs s) (calls s) -> inv n m (st_p s p P') (upd own p o) loc.
Proof.
  intros H Lp Ip N1 N2 N3 HP. pose proof H as (_ & I2 & _ & I4 & I5 & I6).
  apply (assemble n m s (st_p s p P') own (upd own p o) loc loc p n H); cbn [st_p ports clients pend runs calls rets crashed]; auto using incl_refl, more_refl.
  - intros q Nq. rewrite !upd_neq by exact Nq. auto.
  - intros d _ E. exfalso. exact (N1 d E).
  - intros d E. rewrite upd_eq in E. exfalso. exact (N3 d E).
  - intros _. rewrite !upd_eq. exact HP.
  - intros L. exfalso. exact (Nat.lt_irrefl _ L).
  - destruct I5 as (F1 & F2 & F3). split; [exact F1|]. split.
    + intros q Hq. destruct (F2 q Hq) as [L E]. split; [exact L|]. rewrite upd_neq; [exact E|]. intros ->. contradiction.
    + cbn [st_p free freesem clients ports]. rewrite cnt_same by exact Ip. exact F3.
Qed.
(** steps within the service of a request *)
Lemma serve n m s own loc p P' : inv n m s own loc -> p < m -> isPost P' = isPost (ports s p) -> serving (ports s p) ->
  (forall i w, active (ports s p) p i w loc (runs s) (calls s) -> active P' p i w loc (runs s) (calls s)) ->
  inv n m (st_p s p P') own loc.
Proof.
  intros H Lp Ip V A. apply worker; [exact H|exact Lp|exact Ip|]. pose proof H as (I1 & _). 
  destruct (pinv_serving _ _ _ _ _ _ _ _ (I1 p Lp) V) as (i & w & C & Ac). exact (ctx_pinv _ _ _ _ _ _ _ _ i w C (A i w Ac)).
Qed.

Ltac stage_cases H :=
  destruct H as [([?E|?E] & ?A & ?B & ?C)|[((?A & ?B) & ?C & [?E|[?E|[?E|?E]]])|[((?A & ?B) & ?C & ?v & ?E & ?D)|[((?A & ?B) & ?C & ?D & [?E|[?W ?E]])|(?W & ?A & ?B & ?C & ?D & ?E)]]]].

Section Steps.
  Variables (n m : nat) (s : st) (own : nat -> who) (loc : nat -> place) (p : nat).
  Hypothesis (H : inv n m s own loc) (Lp : p < m).
  Let P := ports s p.

  Lemma step_wait : work P = WWait -> 0 < reqsem P ->
    inv n m (st_p s p (mkPort WCopy (reqsem P - 1) (runsem P) (donesem P) (func P) (args P) (wait P) (result P) (gid P))) own loc.
  Proof.
    intros W R. apply serve; [exact H|exact Lp|unfold isPost; fold P; rewrite W; reflexivity|unfold serving; fold P; rewrite W; exact R|].
    fold P. intros i w (G & Wt & N & S). split; [exact G|]. split; [exact Wt|]. split; [exact N|]. unfold stage, still in *. cbn [work reqsem donesem func args result].
    stage_cases S; try congruence; try lia. right; left. split; [split; [lia|exact B]|]. split; [exact C|left; reflexivity].
  Qed.
  Lemma step_copy : work P = WCopy ->
    inv n m (st_p s p (mkPort WArgs (reqsem P) (S (runsem P)) (donesem P) (func P) (args P) (wait P) (result P) (gid P))) own loc.
  Proof.
    intros W. apply serve; [exact H|exact Lp|unfold isPost; fold P; rewrite W; reflexivity|unfold serving; fold P; rewrite W; exact I|].
    fold P. intros i w (G & Wt & N & S). split; [exact G|]. split; [exact Wt|]. split; [exact N|]. unfold stage, still in *. cbn [work reqsem donesem func args result].
    stage_cases S; try congruence. right; left. split; [split; [exact A|exact B]|]. split; [exact C|right; left; reflexivity].
  Qed.
  Lemma step_args : work P = WArgs -> inv n m (st_p s p (set_work P (WFunc (args P)))) own loc.
  Proof.
    intros W. apply serve; [exact H|exact Lp|unfold isPost; fold P; rewrite W; reflexivity|unfold serving; fold P; rewrite W; exact I|].
    fold P. intros i w (G & Wt & N & S). split; [exact G|]. split; [exact Wt|]. split; [exact N|]. unfold stage, still, set_work in *. cbn [work reqsem donesem func args result].
    stage_cases S; try congruence. right; left. split; [split; [exact A|exact B]|]. split; [exact C|right; right; left; reflexivity].
  Qed.
  Lemma step_func a : work P = WFunc a -> inv n m (st_p s p (set_work P (WRun (func P) a))) own loc.
  Proof.
    intros W. apply serve; [exact H|exact Lp|unfold isPost; fold P; rewrite W; reflexivity|unfold serving; fold P; rewrite W; exact I|].
    fold P. intros i w (G & Wt & N & S). split; [exact G|]. split; [exact Wt|]. split; [exact N|]. unfold stage, still, set_work in *. cbn [work reqsem donesem func args result].
    stage_cases S; try congruence. right; left. split; [split; [exact A|exact B]|]. split; [exact C|right; right; right]. congruence.
  Qed.
  Lemma step_store v : work P = WStore v ->
    inv n m (st_p s p (mkPort WTest (reqsem P) (runsem P) (donesem P) (func P) (args P) (wait P) v (gid P))) own loc.
  Proof.
    intros W. apply serve; [exact H|exact Lp|unfold isPost; fold P; rewrite W; reflexivity|unfold serving; fold P; rewrite W; exact I|].
    fold P. intros i w (G & Wt & N & S). split; [exact G|]. split; [exact Wt|]. split; [exact N|]. unfold stage, still in *. cbn [work reqsem donesem func args result].
    stage_cases S; try congruence. right; right; right; left. split; [split; [exact A|exact B]|]. split; [exact C|]. split; [congruence|left; reflexivity].
  Qed.
  Lemma step_done : work P = WDone ->
    inv n m (st_p s p (mkPort WAck (reqsem P) (runsem P) (S (donesem P)) (func P) (args P) (wait P) (result P) (gid P))) own loc.
  Proof.
    intros W. apply serve; [exact H|exact Lp|unfold isPost; fold P; rewrite W; reflexivity|unfold serving; fold P; rewrite W; exact I|].
    fold P. intros i w (G & Wt & N & S). split; [exact G|]. split; [exact Wt|]. split; [exact N|]. unfold stage, still in *. cbn [work reqsem donesem func args result].
    stage_cases S; try congruence. right; right; right; right. split; [exact W0|]. split; [exact A|]. split; [congruence|]. split; [exact C|]. split; [exact D|reflexivity].
  Qed.
  Lemma step_test : work P = WTest -> exists own', inv n m (st_p s p (set_work P (if wait P then WDone else WPush))) own' loc.
  Proof.
    intros W. pose proof H as (I1 & _).
    assert (V : serving P) by (unfold serving; rewrite W; exact I).
    destruct (pinv_serving _ _ _ _ _ _ _ _ (I1 p Lp) V) as (i & w & C & (G & Wt & N & S)). fold P in Wt, S. rewrite Wt.
    destruct w.
    - exists own. apply worker; [exact H|exact Lp|unfold isPost; fold P; rewrite W; reflexivity|].
      apply (ctx_pinv _ _ _ _ _ _ _ _ i true C). split; [exact G|]. split; [exact Wt|]. split; [exact N|].
      unfold stage, still, set_work in *. cbn [work reqsem donesem func args result].
      stage_cases S; try congruence. right; right; right; left. split; [split; [exact A|exact B]|]. split; [exact C0|]. split; [exact D|right; split; reflexivity].
    - exists (upd own p OIdle). destruct C as [C0 C]. destruct (own p) as [| |c| |] eqn:O; try contradiction; try (destruct C; discriminate).
      apply worker_own; [exact H|exact Lp|unfold isPost; fold P; rewrite W; reflexivity|intros c; congruence|congruence|discriminate|].
      split; [intros X; discriminate (C0 X)|]. split; [right; reflexivity|]. unfold still, set_work. cbn [reqsem donesem].
      unfold stage, still in S. stage_cases S; try congruence; auto.
  Qed.
  Lemma step_ack : work P = WAck -> 0 < reqsem P ->
    exists own', inv n m (st_p s p (mkPort WPush (reqsem P - 1) (runsem P) (donesem P) (func P) (args P) (wait P) (result P) (gid P))) own' loc.
  Proof.
    intros W R. pose proof H as (I1 & _). exists (upd own p OIdle).
    assert (X : forall i w, active P p i w loc (runs s) (calls s) -> False).
    { intros i w (_ & _ & _ & S). unfold stage, still in S. stage_cases S; try congruence; lia. }
    assert (Y : forall i v, answered P p i v loc (runs s) (calls s) -> False).
    { intros i v (_ & (S & _) & _). lia. }
    destruct (I1 p Lp) as [C0 C]. fold P in C.
    assert (Z : own p = ONone /\ reqsem P = 1 /\ donesem P = 0).
    { destruct (own p) as [| |c| |] eqn:O.
      - destruct C as [[E|E] _]; congruence.
      - destruct C as [[E|E] _]; congruence.
      - destruct (clients s c); try contradiction; try (destruct C as (_ & [E|E] & _); congruence); exfalso; try (eapply X; apply C); eapply Y; apply C.
      - destruct C as (i & _ & C). exfalso. exact (X _ _ C).
      - destruct C as [(i & C)|(_ & C1 & C2)]; [exfalso; exact (X _ _ C)|]. auto. }
    destruct Z as (O & R1 & D). apply worker_own; [exact H|exact Lp|unfold isPost; fold P; rewrite W; reflexivity|intros c; congruence|congruence|discriminate|].
    split; [intros Z; rewrite (C0 Z) in O; discriminate|]. split; [right; reflexivity|]. split; cbn [reqsem donesem]; [lia|exact D].
  Qed.

  Lemma step_run f a v : work P = WRun f a ->
    exists loc', inv n m (log_run (st_p s p (set_work P (WStore v))) (gid P, f, a, v)) own loc'.
  Proof.
    intros W. pose proof H as (I1 & I2 & _ & I4 & I5 & I6).
    assert (V : serving P) by (unfold serving; rewrite W; exact I).
    destruct (pinv_serving _ _ _ _ _ _ _ _ (I1 p Lp) V) as (i & w & C & (G & Wt & N & S)). fold P in G, Wt, N, S.
    unfold stage, still in S. stage_cases S; try congruence. assert (f = func P /\ a = args P) as [-> ->] by (rewrite W in E; inversion E; auto).
    rewrite G. exists (upd loc i (LRan p)).
    apply (assemble n m s (log_run (st_p s p (set_work P (WStore v))) (i, func P, args P, v)) own own loc (upd loc i (LRan p)) p n H);
      cbn [log_run st_p ports clients pend runs calls rets crashed]; auto using incl_tl, incl_refl, more_refl.
    - intros q Nq. rewrite upd_neq by exact Nq. auto.
    - intros d X. exact (I2 p d X).
    - intros j q Hj Nq. apply upd_neq. intros ->. destruct Hj; congruence.
    - intros j d Hj Nd. apply upd_neq. intros ->. congruence.
    - intros _. rewrite upd_eq. apply (ctx_pinv _ _ _ _ _ _ _ _ i w C). split; [exact G|]. split; [exact Wt|]. split; [exact N|].
      unfold stage, still, set_work. cbn [work reqsem donesem func args result]. right; right; left. split; [split; [exact A|exact B]|].
      split; [apply upd_eq|]. exists v. split; [reflexivity|left; reflexivity].
    - intros L. exfalso. exact (Nat.lt_irrefl _ L).
    - destruct I4 as (G1 & G2 & G3 & G4 & G5). split; [|split; [|split; [|split]]].
      + intros j f a u [X|X].
        * injection X as <- <- <- <-. split; [left; exists p; apply upd_eq|exists w; exact N].
        * destruct (G1 j f a u X) as [Y Z]. split; [|exact Z]. destruct (Nat.eq_dec j i) as [->|Nj]; [left; exists p; apply upd_eq|].
          rewrite upd_neq by exact Nj. exact Y.
      + cbn [map idof fst]. constructor; [|exact G2]. intros X. apply in_map_iff in X as ([[[j f] a] u] & E1 & X). cbn [idof fst] in E1. subst j.
        destruct (G1 i f a u X) as [[(q & Y)|Y] _]; congruence.
      + intros j u X. destruct (G3 j u X) as (Y & f & a & Z1 & Z2). split.
        * rewrite upd_neq; [exact Y|]. intros ->. congruence.
        * exists f, a. split; [exact Z1|right; exact Z2].
      + exact G4.
      + intros j Lj. rewrite upd_neq; [exact (G5 j Lj)|]. intros ->. rewrite (G5 i Lj) in C0. discriminate.
    - destruct I5 as (F1 & F2 & F3). split; [exact F1|]. split; [exact F2|]. cbn [log_run st_p free freesem clients ports].
      rewrite cnt_same; [exact F3|]. unfold isPost. cbn [set_work work]. fold P. rewrite W. reflexivity.
  Qed.

  Lemma step_push : work P = WStart \/ work P = WPush ->
    exists own', inv n m (set_free (st_p s p (set_work P WPost)) (p :: free s) (freesem s)) own' loc.
  Proof.
    intros W. pose proof H as (I1 & I2 & _ & I4 & I5 & I6). exists (upd own p OFree).
    assert (NA : forall i w, active P p i w loc (runs s) (calls s) -> False).
    { intros i w (_ & _ & _ & S). unfold stage, still in S. stage_cases S; destruct W; congruence. }
    destruct (I1 p Lp) as [C0 C]. fold P in C.
    assert (Z : own p = OIdle /\ still P).
    { destruct (own p) as [| |c| |] eqn:O.
      - tauto.
      - destruct C as [[E|E] _]; destruct W; congruence.
      - destruct (clients s c); try contradiction; try (destruct C as (_ & [E|E] & _); destruct W; congruence); exfalso; try (eapply NA; apply C);
          destruct C as (_ & E & _); destruct W; congruence.
      - destruct C as (i & _ & C). exfalso. exact (NA _ _ C).
      - destruct C as [(i & C)|(E & _)]; [exfalso; exact (NA _ _ C)|]. destruct W; congruence. }
    destruct Z as [O St].
    apply (assemble n m s (set_free (st_p s p (set_work P WPost)) (p :: free s) (freesem s)) own (upd own p OFree) loc loc p n H);
      cbn [set_free st_p ports clients pend runs calls rets crashed]; auto using incl_refl, more_refl.
    - intros q Nq. rewrite !upd_neq by exact Nq. auto.
    - intros d _ E. congruence.
    - intros d E. rewrite upd_eq in E. discriminate.
    - intros _. rewrite !upd_eq. split; [intros X; rewrite (C0 X) in O; discriminate|]. split; [left; reflexivity|exact St].
    - intros L. exfalso. exact (Nat.lt_irrefl _ L).
    - destruct I5 as (F1 & F2 & F3). split; [|split].
      + constructor; [|exact F1]. intros X. destruct (F2 p X) as [_ E]. congruence.
      + cbn [set_free st_p free]. intros q [<-|Hq]; [split; [exact Lp|apply upd_eq]|]. destruct (F2 q Hq) as [L E]. split; [exact L|].
        rewrite upd_neq; [exact E|]. intros ->. congruence.
      + cbn [set_free st_p free freesem clients ports length]. pose proof (cnt_upd isPost (ports s) p (set_work P WPost) m Lp) as X.
        assert (Y : isPost (ports s p) = false) by (unfold isPost; fold P; destruct W as [-> | ->]; reflexivity).
        rewrite Y in X. change (isPost (set_work P WPost)) with true in X. cbn [b2n] in X. lia.
  Qed.
  Lemma step_wpost : work P = WPost -> inv n m (set_free (st_p s p (set_work P WWait)) (free s) (S (freesem s))) own loc.
  Proof.
    intros W. pose proof H as (I1 & I2 & _ & I4 & I5 & I6).
    apply (assemble n m s (set_free (st_p s p (set_work P WWait)) (free s) (S (freesem s))) own own loc loc p n H);
      cbn [set_free st_p ports clients pend runs calls rets crashed]; auto using incl_refl, more_refl.
    - intros q Nq. rewrite !upd_neq by exact Nq. auto.
    - intros d X. exact (I2 p d X).
    - intros _. rewrite upd_eq. 
      assert (NA : forall i w, active P p i w loc (runs s) (calls s) -> active (set_work P WWait) p i w loc (runs s) (calls s)).
      { intros i w (G & Wt & N & S). split; [exact G|]. split; [exact Wt|]. split; [exact N|]. unfold stage, still, set_work in *. cbn [work reqsem donesem func args result].
        stage_cases S; try congruence. left. split; [right; reflexivity|]. auto. }
      assert (PW : pre (work (set_work P WWait))) by (right; reflexivity).
      destruct (I1 p Lp) as [C0 C]. fold P in C. split; [exact C0|]. destruct (own p) as [| |c| |].
      + destruct C as [[E|E] _]; congruence.
      + split; [exact PW|apply C].
      + destruct (clients s c); try contradiction; unfold still, set_work in *; cbn [reqsem donesem func args wait] in *; try tauto.
        * destruct C as (E1 & E2 & C). split; [exact E1|]. split; [exact E2|exact (NA _ _ C)].
        * destruct C as (E1 & C). split; [exact E1|exact (NA _ _ C)].
        * destruct C as (_ & E & _). congruence.
        * destruct C as (_ & E & _). congruence.
      + destruct C as (i & E & C). exists i. split; [exact E|exact (NA _ _ C)].
      + destruct C as [(i & C)|(E & _)]; [|congruence]. left. exists i. exact (NA _ _ C).
    - intros L. exfalso. exact (Nat.lt_irrefl _ L).
    - destruct I5 as (F1 & F2 & F3). split; [exact F1|]. split; [exact F2|].
      cbn [set_free st_p free freesem clients ports]. pose proof (cnt_upd isPost (ports s) p (set_work P WWait) m Lp) as X.
      assert (Y : isPost (ports s p) = true) by (unfold isPost; fold P; rewrite W; reflexivity).
      rewrite Y in X. change (isPost (set_work P WWait)) with false in X. cbn [b2n] in X. lia.
  Qed.
End Steps.
