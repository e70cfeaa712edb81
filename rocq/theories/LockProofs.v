(** Invariants of the readers-writer lock and of the semaphore. *)
From Verif Require Import LockModel.

Definition b2n (b : bool) : nat := if b then 1 else 0.
Fixpoint cnt {A} (P : A -> bool) (f : nat -> A) (n : nat) : nat :=
  match n with O => 0 | S n => cnt P f n + b2n (P (f n)) end.
Lemma upd_eq {A} (f : nat -> A) t a : upd f t a t = a.
Proof. unfold upd. rewrite Nat.eqb_refl. reflexivity. Qed.
Lemma upd_neq {A} (f : nat -> A) t a u : u <> t -> upd f t a u = f u.
Proof. intros N. unfold upd. destruct (Nat.eqb_spec u t); [contradiction|reflexivity]. Qed.
Lemma cnt_ext {A} (P : A -> bool) f g n : (forall t, t < n -> P (f t) = P (g t)) -> cnt P f n = cnt P g n.
Proof. induction n as [|n IH]; intros H; [reflexivity|]. cbn [cnt]. rewrite IH, H; auto. Qed.
Lemma cnt_upd {A} (P : A -> bool) f t a n : t < n -> cnt P (upd f t a) n + b2n (P (f t)) = cnt P f n + b2n (P a).
Proof.
  induction n as [|n IH]; intros L; [lia|]. cbn [cnt]. destruct (Nat.eq_dec t n) as [->|N].
  - rewrite upd_eq. rewrite (cnt_ext P (upd f n a) f n); [lia|]. intros u Hu. rewrite upd_neq by lia. reflexivity.
  - rewrite (upd_neq f t a n) by lia. specialize (IH ltac:(lia)). lia.
Qed.
Lemma cnt_le {A} (P : A -> bool) f n : cnt P f n <= n.
Proof. induction n as [|n IH]; [apply Nat.le_refl|]. cbn [cnt]. destruct (P (f n)); cbn [b2n]; lia. Qed.
Lemma cnt_pos {A} (P : A -> bool) f n t : t < n -> P (f t) = true -> 1 <= cnt P f n.
Proof.
  induction n as [|n IH]; intros L H; [lia|]. cbn [cnt]. destruct (Nat.eq_dec t n) as [->|N]; [rewrite H; cbn [b2n]; lia|].
  specialize (IH ltac:(lia) H). lia.
Qed.
Lemma cnt_two {A} (P : A -> bool) f n t u : t < n -> u < n -> t <> u -> P (f t) = true -> P (f u) = true -> 2 <= cnt P f n.
Proof.
  induction n as [|n IH]; intros Lt Lu N Ht Hu; [lia|]. cbn [cnt].
  destruct (Nat.eq_dec t n) as [->|Nt].
  - rewrite Ht. pose proof (cnt_pos P f n u ltac:(lia) Hu). cbn [b2n]. lia.
  - destruct (Nat.eq_dec u n) as [->|Nu].
    + rewrite Hu. pose proof (cnt_pos P f n t ltac:(lia) Ht). cbn [b2n]. lia.
    + specialize (IH ltac:(lia) ltac:(lia) N Ht Hu). lia.
Qed.

Module RWP.
  Import RW.
  Definition inmutex (p : pc) : bool :=
    match p with Test _ | Got _ | USet _ | UBw | UBr | UEnd => true | _ => false end.
  Definition counts (k : kind) (p : pc) : bool :=
    match p, k with Got R, R | Hold R, R | ULock R, R | USet R, R | Got W, W | Hold W, W | ULock W, W | USet W, W => true | _, _ => false end.
  Definition mutex_ok (n : nat) (s : st) : Prop :=
    (forall t, t < n -> inmutex (pcs s t) = true -> owner s = Some t) /\
    (forall t, owner s = Some t -> t < n /\ inmutex (pcs s t) = true).
  Definition count_ok (n : nat) (s : st) : Prop :=
    (cnt (counts W) (pcs s) n = 0 /\ readers s = Z.of_nat (cnt (counts R) (pcs s) n)) \/
    (cnt (counts W) (pcs s) n = 1 /\ cnt (counts R) (pcs s) n = 0 /\ readers s = (W32 - 1)%Z).
  Definition wake_ok (n : nat) (s : st) : Prop :=
    (forall t, t < n -> pcs s t = Sleep R -> readers s = (W32 - 1)%Z \/ exists u, u < n /\ (pcs s u = UBw \/ pcs s u = UBr)) /\
    (forall t, t < n -> pcs s t = Sleep W -> readers s <> 0%Z \/ exists u, u < n /\ pcs s u = UBw).

  Lemma wake_inmutex k f t : inmutex (wake k f t) = inmutex (f t).
  Proof. unfold wake. destruct (f t) as [| | |[]| | | | | | | |], k; reflexivity. Qed.
  Lemma wake_counts k j f t : counts j (wake k f t) = counts j (f t).
  Proof. unfold wake. destruct (f t) as [| | |[]| | | | | | | |], k; reflexivity. Qed.
  Lemma wake_awake k f t : f t <> Sleep k -> wake k f t = f t.
  Proof. unfold wake. destruct (f t) as [| | |[]| | | | | | | |], k; intros H; try reflexivity; congruence. Qed.
  Lemma wake_not k f t : wake k f t <> Sleep k.
  Proof. unfold wake. destruct (f t) as [| | |[]| | | | | | | |], k; discriminate. Qed.

  Lemma mutex_step n s s' : mutex_ok n s -> step n s s' -> mutex_ok n s'.
  Proof.
    intros [A B] H.
    assert (K : forall t p o, t < n ->
        (forall u, u <> t -> inmutex (pcs s' u) = inmutex (pcs s u)) -> pcs s' t = p -> owner s' = o ->
        (inmutex p = inmutex (pcs s t) /\ o = owner s \/
         inmutex p = true /\ owner s = None /\ o = Some t \/
         inmutex p = false /\ inmutex (pcs s t) = true /\ o = None) -> mutex_ok n s').
    { intros t p o Lt E Ep Eo [[C1 C2]|[[C1 [C2 C3]]|[C1 [C2 C3]]]]; split.
      - intros u Lu Hu. rewrite Eo, C2. apply A; [exact Lu|]. destruct (Nat.eq_dec u t) as [->|N]; [congruence|]. rewrite <- E; auto.
      - intros u Hu. rewrite Eo, C2 in Hu. destruct (B u Hu) as [Lu I1]. split; [exact Lu|].
        destruct (Nat.eq_dec u t) as [->|N]; [congruence|]. rewrite E; auto.
      - intros u Lu Hu. rewrite Eo, C3. destruct (Nat.eq_dec u t) as [->|N]; [reflexivity|]. rewrite (E u N) in Hu.
        rewrite (A u Lu Hu) in C2. discriminate.
      - intros u Hu. rewrite Eo, C3 in Hu. inversion Hu; subst u. split; [exact Lt|congruence].
      - intros u Lu Hu. exfalso. pose proof (A t Lt C2) as Ot. destruct (Nat.eq_dec u t) as [->|N]; [congruence|].
        rewrite (E u N) in Hu. rewrite (A u Lu Hu) in Ot. congruence.
      - intros u Hu. rewrite Eo, C3 in Hu. discriminate. }
    destruct H as [t k s Lt Hp|t k s Lt Hp Ho|t s Lt Hp Hr|t s Lt Hp Hr|t s Lt Hp Hr|t s Lt Hp Hr|t k s Lt Hp|t k s Lt Hp Ho|t k s Lt Hp|t k s Lt Hp|t k s Lt Hp Ho|t k s Lt Hp|t s Lt Hp|t s Lt Hp|t s Lt Hp];
      (eapply (K t); [eassumption| | cbn [pcs]; apply upd_eq | cbn [owner]; reflexivity | cbn [inmutex]; rewrite Hp; cbn [inmutex]; tauto]);
      intros u Nu; cbn [pcs]; rewrite upd_neq by exact Nu; try reflexivity; apply wake_inmutex.
  Qed.

  Lemma count_step n s s' : (Z.of_nat n < W32 - 1)%Z -> count_ok n s -> step n s s' -> count_ok n s'.
  Proof.
    intros Bn C H. pose proof (cnt_le (counts R) (pcs s) n) as Le.
    assert (HW : W32 = 4294967296%Z) by reflexivity.
    destruct H as [t k s Lt Hp|t k s Lt Hp Ho|t s Lt Hp Hr|t s Lt Hp Hr|t s Lt Hp Hr|t s Lt Hp Hr|t k s Lt Hp|t k s Lt Hp Ho|t k s Lt Hp|t k s Lt Hp|t k s Lt Hp Ho|t k s Lt Hp|t s Lt Hp|t s Lt Hp|t s Lt Hp]; cbn [pcs readers];
      unfold count_ok; cbn [pcs readers];
      match goal with
      | Hp : pcs s t = ?p |- context [upd (pcs s) t ?a] =>
          pose proof (cnt_upd (counts W) (pcs s) t a n Lt) as CW; pose proof (cnt_upd (counts R) (pcs s) t a n Lt) as CR;
          rewrite Hp in CW, CR
      | Hp : pcs s t = ?p |- context [upd (wake ?k (pcs s)) t ?a] =>
          pose proof (cnt_upd (counts W) (wake k (pcs s)) t a n Lt) as CW; pose proof (cnt_upd (counts R) (wake k (pcs s)) t a n Lt) as CR;
          rewrite (cnt_ext (counts W) (wake k (pcs s)) (pcs s) n) in CW by (intros; apply wake_counts);
          rewrite (cnt_ext (counts R) (wake k (pcs s)) (pcs s) n) in CR by (intros; apply wake_counts);
          rewrite wake_counts, Hp in CW, CR
      end;
      try (destruct k); cbn [counts b2n] in CW, CR; unfold count_ok in C;
      try (destruct C as [[C1 C2]|[C1 [C2 C3]]]; [left; split; [lia|lia]|right; split; [lia|split; lia]]).
    - (* rgot *) destruct C as [[C1 C2]|[C1 [C2 C3]]]; [|contradiction]. left. split; [lia|].
      rewrite Z.mod_small by lia. lia.
    - (* wgot *) destruct C as [[C1 C2]|[C1 [C2 C3]]]; [|lia]. right. split; [lia|]. split; [lia|reflexivity].
    - (* uset R *) destruct C as [[C1 C2]|[C1 [C2 C3]]].
      + left. split; [lia|]. destruct (Z.eqb_spec (readers s) (W32 - 1)) as [E|E]; [lia|]. rewrite Z.mod_small by lia. lia.
      + pose proof (cnt_pos (counts R) (pcs s) n t Lt ltac:(rewrite Hp; reflexivity)). lia.
    - (* uset W *) destruct C as [[C1 C2]|[C1 [C2 C3]]].
      + pose proof (cnt_pos (counts W) (pcs s) n t Lt ltac:(rewrite Hp; reflexivity)). lia.
      + left. split; [lia|]. rewrite C3, Z.eqb_refl. lia.
  Qed.

  Lemma wake_step n s s' : (Z.of_nat n < W32 - 1)%Z -> mutex_ok n s -> count_ok n s -> wake_ok n s -> step n s s' -> wake_ok n s'.
  Proof.
    intros Bn [A B] C [WR WW] H. pose proof (cnt_le (counts R) (pcs s) n) as Le.
    assert (HW : W32 = 4294967296%Z) by reflexivity.
    (* a thread with the mutex excludes a broadcasting one *)
    assert (X : forall t u, t < n -> u < n -> inmutex (pcs s t) = true -> inmutex (pcs s u) = true -> t = u).
    { intros t u Lt Lu It Iu. pose proof (A t Lt It). pose proof (A u Lu Iu). congruence. }
    (* steps that change neither readers nor a broadcasting thread, and put nobody to sleep *)
    assert (K : forall t a, t < n -> readers s' = readers s -> pcs s' = upd (pcs s) t a ->
      (forall k, a <> Sleep k) -> pcs s t <> UBw -> pcs s t <> UBr -> wake_ok n s').
    { intros t a Lt Er Ep Na N1 N2. rewrite <- Er in WR, WW. split.
      - intros u Lu Hu. rewrite Ep in Hu |- *. destruct (Nat.eq_dec u t) as [->|N]; [rewrite upd_eq in Hu; exfalso; exact (Na _ Hu)|].
        rewrite upd_neq in Hu by exact N. destruct (WR u Lu Hu) as [E|(v & Lv & Hv)]; [left; exact E|]. right. exists v. split; [exact Lv|].
        rewrite upd_neq; [exact Hv|]. intros ->. tauto.
      - intros u Lu Hu. rewrite Ep in Hu |- *. destruct (Nat.eq_dec u t) as [->|N]; [rewrite upd_eq in Hu; exfalso; exact (Na _ Hu)|].
        rewrite upd_neq in Hu by exact N. destruct (WW u Lu Hu) as [E|(v & Lv & Hv)]; [left; exact E|]. right. exists v. split; [exact Lv|].
        rewrite upd_neq; [exact Hv|]. intros ->. tauto. }
    destruct H as [t k s Lt Hp|t k s Lt Hp Ho|t s Lt Hp Hr|t s Lt Hp Hr|t s Lt Hp Hr|t s Lt Hp Hr|t k s Lt Hp|t k s Lt Hp Ho|t k s Lt Hp|t k s Lt Hp|t k s Lt Hp Ho|t k s Lt Hp|t s Lt Hp|t s Lt Hp|t s Lt Hp];
      try (eapply (K t); [eassumption|reflexivity|cbn [pcs]; reflexivity|discriminate|rewrite Hp; discriminate|rewrite Hp; discriminate]; fail).
    - (* rsleep *) split; cbn [pcs readers]; intros u Lu Hu.
      + left. exact Hr.
      + destruct (Nat.eq_dec u t) as [->|N]; [rewrite upd_eq in Hu; discriminate|]. left. rewrite Hr. lia.
    - (* rgot *) split; cbn [pcs readers]; intros u Lu Hu; (destruct (Nat.eq_dec u t) as [->|N]; [rewrite upd_eq in Hu; discriminate|]);
        rewrite upd_neq in Hu by exact N.
      + exfalso. destruct (WR u Lu Hu) as [E|(v & Lv & Hv)]; [contradiction|].
        assert (v = t) by (apply (X v t Lv Lt); [destruct Hv as [-> | ->]; reflexivity|rewrite Hp; reflexivity]). subst v. rewrite Hp in Hv. destruct Hv; discriminate.
      + left. destruct C as [[C1 C2]|[C1 [C2 C3]]]; [|contradiction]. rewrite Z.mod_small by lia. lia.
    - (* wsleep *) split; cbn [pcs readers]; intros u Lu Hu.
      + destruct (Nat.eq_dec u t) as [->|N]; [rewrite upd_eq in Hu; discriminate|]. rewrite upd_neq in Hu by exact N.
        destruct (WR u Lu Hu) as [E|(v & Lv & Hv)]; [left; exact E|]. exfalso.
        assert (v = t) by (apply (X v t Lv Lt); [destruct Hv as [-> | ->]; reflexivity|rewrite Hp; reflexivity]). subst v. rewrite Hp in Hv. destruct Hv; discriminate.
      + left. exact Hr.
    - (* wgot *) split; cbn [pcs readers]; intros u Lu Hu; left; [reflexivity|lia].
    - (* uset *) split; cbn [pcs readers]; intros u Lu Hu; right; exists t; (split; [exact Lt|]); rewrite upd_eq; [left|]; reflexivity.
    - (* ubw *) split; cbn [pcs readers]; intros u Lu Hu.
      + right. exists t. split; [exact Lt|]. right. apply upd_eq.
      + exfalso. destruct (Nat.eq_dec u t) as [->|N]; [rewrite upd_eq in Hu; discriminate|]. rewrite upd_neq in Hu by exact N. exact (wake_not W _ _ Hu).
    - (* ubr *) split; cbn [pcs readers]; intros u Lu Hu; (destruct (Nat.eq_dec u t) as [->|N]; [rewrite upd_eq in Hu; discriminate|]);
        rewrite upd_neq in Hu by exact N.
      + exfalso. exact (wake_not R _ _ Hu).
      + assert (Hs : pcs s u = Sleep W).
        { revert Hu. unfold wake. destruct (pcs s u) as [| | |[]| | | | | | | |]; congruence. }
        destruct (WW u Lu Hs) as [E|(v & Lv & Hv)]; [left; exact E|]. exfalso.
        assert (v = t) by (apply (X v t Lv Lt); [rewrite Hv; reflexivity|rewrite Hp; reflexivity]). subst v. rewrite Hp in Hv. discriminate.
  Qed.

  Theorem inv n s : (Z.of_nat n < W32 - 1)%Z -> reachable n s -> mutex_ok n s /\ count_ok n s /\ wake_ok n s.
  Proof.
    intros Bn H. induction H as [|s s' _ (M & C & V) St].
    - split; [|split].
      + split; [discriminate|discriminate].
      + left. cbn [init pcs readers].
        assert (E : forall k, cnt (counts k) (fun _ => Idle) n = 0).
        { intros k. induction n as [|m IH]; [reflexivity|]. cbn [cnt]. rewrite IH by lia. destruct k; reflexivity. }
        rewrite !E. split; reflexivity.
      + split; discriminate.
    - split; [exact (mutex_step n s s' M St)|]. split; [exact (count_step n s s' Bn C St)|exact (wake_step n s s' Bn M C V St)].
  Qed.

  Theorem exclusion n s t u : (Z.of_nat n < W32 - 1)%Z -> reachable n s -> t < n -> u < n -> t <> u ->
    pcs s t = Hold W -> pcs s u = Hold W \/ pcs s u = Hold R -> False.
  Proof.
    intros Bn Hr Lt Lu N Ht Hu. destruct (inv n s Bn Hr) as (_ & C & _).
    pose proof (cnt_pos (counts W) (pcs s) n t Lt ltac:(rewrite Ht; reflexivity)).
    destruct Hu as [Hu|Hu].
    - pose proof (cnt_two (counts W) (pcs s) n t u Lt Lu N ltac:(rewrite Ht; reflexivity) ltac:(rewrite Hu; reflexivity)).
      destruct C as [[? ?]|[? [? ?]]]; lia.
    - pose proof (cnt_pos (counts R) (pcs s) n u Lu ltac:(rewrite Hu; reflexivity)).
      destruct C as [[? ?]|[? [? ?]]]; lia.
  Qed.

  (** the calls a thread is in the middle of, other than sleeping *)
  Definition busy (p : pc) : Prop := match p with Idle | Sleep _ | Hold _ => False | _ => True end.
  Lemma owner_moves n s t : mutex_ok n s -> owner s = Some t -> exists s', step n s s' /\ pcs s' t <> pcs s t /\ busy (pcs s t).
  Proof.
    intros [A B] H. destruct (B t H) as [Lt It]. destruct (pcs s t) as [|k|k|k|k|k|k|k|k| | |] eqn:P; try discriminate It.
    - destruct k.
      + destruct (Z.eq_dec (readers s) (W32 - 1)) as [E|E].
        * eexists. split; [exact (s_rsleep n t s Lt P E)|]. cbn [pcs]. rewrite upd_eq. split; [discriminate|exact I].
        * eexists. split; [exact (s_rgot n t s Lt P E)|]. cbn [pcs]. rewrite upd_eq. split; [discriminate|exact I].
      + destruct (Z.eq_dec (readers s) 0) as [E|E].
        * eexists. split; [exact (s_wgot n t s Lt P E)|]. cbn [pcs]. rewrite upd_eq. split; [discriminate|exact I].
        * eexists. split; [exact (s_wsleep n t s Lt P E)|]. cbn [pcs]. rewrite upd_eq. split; [discriminate|exact I].
    - eexists. split; [exact (s_done n t k s Lt P)|]. cbn [pcs]. rewrite upd_eq. split; [discriminate|exact I].
    - eexists. split; [exact (s_uset n t k s Lt P)|]. cbn [pcs]. rewrite upd_eq. split; [discriminate|exact I].
    - eexists. split; [exact (s_ubw n t s Lt P)|]. cbn [pcs]. rewrite upd_eq. split; [discriminate|exact I].
    - eexists. split; [exact (s_ubr n t s Lt P)|]. cbn [pcs]. rewrite upd_eq. split; [discriminate|exact I].
    - eexists. split; [exact (s_uend n t s Lt P)|]. cbn [pcs]. rewrite upd_eq. split; [discriminate|exact I].
  Qed.

  (** When no thread holds the lock and some thread waits for it, some call in progress can go on. *)
  Lemma none_hold n s : mutex_ok n s -> owner s = None -> (forall t k, t < n -> pcs s t <> Hold k /\ pcs s t <> ULock k) ->
    forall k, cnt (counts k) (pcs s) n = 0.
  Proof.
    intros [A B] O N k. assert (E : forall t, t < n -> counts k (pcs s t) = false).
    { intros t Lt. destruct (pcs s t) as [|j|j|j|j|j|j|j|j| | |] eqn:P; try reflexivity.
      - pose proof (A t Lt ltac:(rewrite P; reflexivity)). congruence.
      - destruct (N t j Lt); congruence.
      - destruct (N t j Lt); congruence.
      - pose proof (A t Lt ltac:(rewrite P; reflexivity)). congruence. }
    assert (G : forall m, m <= n -> cnt (counts k) (pcs s) m = 0).
    { induction m as [|m IH]; intros L; [reflexivity|]. cbn [cnt]. rewrite IH, E by lia. reflexivity. }
    apply G. apply Nat.le_refl.
  Qed.
  Lemma search (n : nat) (P : nat -> Prop) : (forall t, P t \/ ~ P t) -> (exists t, t < n /\ P t) \/ (forall t, t < n -> ~ P t).
  Proof.
    intros D. induction n as [|n IH]; [right; intros; lia|]. destruct IH as [(t & Lt & H)|H].
    - left. exists t. split; [lia|exact H].
    - destruct (D n) as [Pn|Pn]; [left; exists n; split; [lia|exact Pn]|]. right. intros t Lt. destruct (Nat.eq_dec t n) as [->|N]; [exact Pn|apply H; lia].
  Qed.
  Theorem progress n s t k : (Z.of_nat n < W32 - 1)%Z -> reachable n s -> t < n ->
    (forall u j, u < n -> pcs s u <> Hold j) -> pcs s t = Lock k \/ pcs s t = Test k \/ pcs s t = Sleep k \/ pcs s t = Woken k ->
    exists u s', step n s s' /\ pcs s' u <> pcs s u /\ busy (pcs s u).
  Proof.
    intros Bn Hr Lt NH Ht. destruct (inv n s Bn Hr) as (M & C & V).
    destruct (owner s) as [o|] eqn:O; [destruct (owner_moves n s o M O) as (s' & H); exists o, s'; exact H|].
    destruct (search n (fun u => exists j, pcs s u = ULock j)) as [(u & Lu & j & Hu)|NU].
    { intros u. destruct (pcs s u); try (right; intros [? ?]; discriminate). left. eexists. reflexivity. }
    { eexists u, _. split; [exact (s_ulock n u j s Lu Hu O)|]. cbn [pcs]. rewrite upd_eq, Hu. split; [discriminate|exact I]. }
    assert (Z0 : forall j, cnt (counts j) (pcs s) n = 0).
    { apply (none_hold n s M O). intros u j Lu. split; [apply NH; exact Lu|]. intros E. apply (NU u Lu). exists j. exact E. }
    assert (R0 : readers s = 0%Z) by (destruct C as [[_ C]|[C _]]; [rewrite C, Z0; reflexivity|rewrite Z0 in C; discriminate]).
    destruct Ht as [Ht|[Ht|[Ht|Ht]]].
    - eexists t, _. split; [exact (s_lock n t k s Lt Ht O)|]. cbn [pcs]. rewrite upd_eq, Ht. split; [discriminate|exact I].
    - destruct M as [A _]. pose proof (A t Lt ltac:(rewrite Ht; reflexivity)). congruence.
    - exfalso. destruct M as [A _]. destruct V as [VR VW]. destruct k.
      + destruct (VR t Lt Ht) as [E|(u & Lu & [E|E])]; [rewrite R0 in E; discriminate| |];
          pose proof (A u Lu ltac:(rewrite E; reflexivity)); congruence.
      + destruct (VW t Lt Ht) as [E|(u & Lu & E)]; [contradiction|]. pose proof (A u Lu ltac:(rewrite E; reflexivity)); congruence.
    - eexists t, _. split; [exact (s_relock n t k s Lt Ht O)|]. cbn [pcs]. rewrite upd_eq, Ht. split; [discriminate|exact I].
  Qed.
End RWP.

Module SemP.
  Import Sem.
  Definition inmutex (p : pc) : bool :=
    match p with WTest | WEnd | TTest | TEnd _ | PInc | PBc | PEnd => true | _ => false end.
  Definition mutex_ok (n : nat) (s : st) : Prop :=
    (forall t, t < n -> inmutex (pcs s t) = true -> owner s = Some t) /\
    (forall t, owner s = Some t -> t < n /\ inmutex (pcs s t) = true).
  Definition count_ok (s : st) : Prop :=
    (0 <= count s < W32)%Z /\ exists q, (0 <= q)%Z /\ (Z.of_nat (posts s) = Z.of_nat (waits s) + count s + q * W32)%Z.
  Definition wake_ok (n : nat) (s : st) : Prop :=
    forall t, t < n -> pcs s t = WSleep -> count s = 0%Z \/ exists u, u < n /\ pcs s u = PBc.

  Lemma wake_inmutex f t : inmutex (wake f t) = inmutex (f t).
  Proof. unfold wake. destruct (f t); reflexivity. Qed.
  Lemma wake_not f t : wake f t <> WSleep.
  Proof. unfold wake. destruct (f t); discriminate. Qed.

  Lemma mutex_step n s s' : mutex_ok n s -> step n s s' -> mutex_ok n s'.
  Proof.
    intros [A B] H.
    assert (K : forall t p o, t < n ->
        (forall u, u <> t -> inmutex (pcs s' u) = inmutex (pcs s u)) -> pcs s' t = p -> owner s' = o ->
        (inmutex p = inmutex (pcs s t) /\ o = owner s \/
         inmutex p = true /\ owner s = None /\ o = Some t \/
         inmutex p = false /\ inmutex (pcs s t) = true /\ o = None) -> mutex_ok n s').
    { intros t p o Lt E Ep Eo [[C1 C2]|[[C1 [C2 C3]]|[C1 [C2 C3]]]]; split.
      - intros u Lu Hu. rewrite Eo, C2. apply A; [exact Lu|]. destruct (Nat.eq_dec u t) as [->|N]; [congruence|]. rewrite <- E; auto.
      - intros u Hu. rewrite Eo, C2 in Hu. destruct (B u Hu) as [Lu I1]. split; [exact Lu|].
        destruct (Nat.eq_dec u t) as [->|N]; [congruence|]. rewrite E; auto.
      - intros u Lu Hu. rewrite Eo, C3. destruct (Nat.eq_dec u t) as [->|N]; [reflexivity|]. rewrite (E u N) in Hu.
        rewrite (A u Lu Hu) in C2. discriminate.
      - intros u Hu. rewrite Eo, C3 in Hu. inversion Hu; subst u. split; [exact Lt|congruence].
      - intros u Lu Hu. exfalso. pose proof (A t Lt C2) as Ot. destruct (Nat.eq_dec u t) as [->|N]; [congruence|].
        rewrite (E u N) in Hu. rewrite (A u Lu Hu) in Ot. congruence.
      - intros u Hu. rewrite Eo, C3 in Hu. discriminate. }
    destruct H as [t s Lt Hp|t s Lt Hp Ho|t s Lt Hp Hc|t s Lt Hp Hc|t s Lt Hp|t s Lt Hp Ho|t s Lt Hp|t s Lt Hp|t s Lt Hp Ho|t s Lt Hp Hc|t s Lt Hp Hc|t b s Lt Hp|t s Lt Hp|t s Lt Hp Ho|t s Lt Hp|t s Lt Hp|t s Lt Hp];
      (eapply (K t); [eassumption| | cbn [pcs]; apply upd_eq | cbn [owner]; reflexivity | cbn [inmutex]; rewrite Hp; cbn [inmutex]; tauto]);
      intros u Nu; cbn [pcs]; rewrite upd_neq by exact Nu; try reflexivity; apply wake_inmutex.
  Qed.

  Lemma count_step n s s' : count_ok s -> step n s s' -> count_ok s'.
  Proof.
    intros [C (q & Q & E)] H. assert (HW : W32 = 4294967296%Z) by reflexivity.
    destruct H as [t s Lt Hp|t s Lt Hp Ho|t s Lt Hp Hc|t s Lt Hp Hc|t s Lt Hp|t s Lt Hp Ho|t s Lt Hp|t s Lt Hp|t s Lt Hp Ho|t s Lt Hp Hc|t s Lt Hp Hc|t b s Lt Hp|t s Lt Hp|t s Lt Hp Ho|t s Lt Hp|t s Lt Hp|t s Lt Hp];
      unfold count_ok; cbn [count posts waits]; try (split; [exact C|]; exists q; split; [exact Q|exact E]).
    - rewrite Z.mod_small by lia. split; [lia|]. exists q. split; [exact Q|lia].
    - rewrite Z.mod_small by lia. split; [lia|]. exists q. split; [exact Q|lia].
    - split; [apply Z.mod_pos_bound; lia|]. destruct (Z.eq_dec (count s) (W32 - 1)) as [D|D].
      + exists (q + 1)%Z. split; [lia|]. rewrite D. replace (W32 - 1 + 1)%Z with W32 by lia. rewrite Z.mod_same by lia. lia.
      + exists q. split; [exact Q|]. rewrite Z.mod_small by lia. lia.
  Qed.

  Lemma wake_step n s s' : mutex_ok n s -> wake_ok n s -> step n s s' -> wake_ok n s'.
  Proof.
    intros [A B] V H.
    assert (K : forall t a, t < n -> (count s' = count s) -> pcs s' = upd (pcs s) t a -> a <> WSleep -> pcs s t <> PBc -> wake_ok n s').
    { intros t a Lt Ec Ep Na Np u Lu Hu. rewrite Ep in Hu |- *. destruct (Nat.eq_dec u t) as [->|N]; [rewrite upd_eq in Hu; contradiction|].
      rewrite upd_neq in Hu by exact N. destruct (V u Lu Hu) as [E|(v & Lv & Hv)]; [left; congruence|]. right. exists v. split; [exact Lv|].
      rewrite upd_neq; [exact Hv|]. intros ->. contradiction. }
    assert (D : forall t a, t < n -> count s <> 0%Z -> inmutex (pcs s t) = true -> pcs s t <> PBc -> pcs s' = upd (pcs s) t a -> a <> WSleep -> wake_ok n s').
    { intros t a Lt Nc It Np Ep Na u Lu Hu. exfalso. rewrite Ep in Hu. destruct (Nat.eq_dec u t) as [->|N]; [rewrite upd_eq in Hu; contradiction|].
      rewrite upd_neq in Hu by exact N. destruct (V u Lu Hu) as [E|(v & Lv & Hv)]; [contradiction|].
      pose proof (A t Lt It) as O1. pose proof (A v Lv ltac:(rewrite Hv; reflexivity)) as O2. congruence. }
    destruct H as [t s Lt Hp|t s Lt Hp Ho|t s Lt Hp Hc|t s Lt Hp Hc|t s Lt Hp|t s Lt Hp Ho|t s Lt Hp|t s Lt Hp|t s Lt Hp Ho|t s Lt Hp Hc|t s Lt Hp Hc|t b s Lt Hp|t s Lt Hp|t s Lt Hp Ho|t s Lt Hp|t s Lt Hp|t s Lt Hp];
      try (eapply (K t); [eassumption|reflexivity|cbn [pcs]; reflexivity|discriminate|rewrite Hp; discriminate]; fail);
      try (eapply (D t); [eassumption|exact Hc|rewrite Hp; reflexivity|rewrite Hp; discriminate|cbn [pcs]; reflexivity|discriminate]; fail).
    - intros u Lu Hu. left. exact Hc.
    - intros u Lu Hu. right. exists t. split; [exact Lt|]. cbn [pcs]. apply upd_eq.
    - intros u Lu Hu. exfalso. cbn [pcs] in Hu. destruct (Nat.eq_dec u t) as [->|N]; [rewrite upd_eq in Hu; discriminate|].
      rewrite upd_neq in Hu by exact N. exact (wake_not _ _ Hu).
  Qed.

  Theorem inv n s : reachable n s -> mutex_ok n s /\ count_ok s /\ wake_ok n s.
  Proof.
    intros H. induction H as [|s s' _ (M & C & V) St].
    - split; [split; discriminate|]. split; [|intros t Lt; discriminate].
      split; [split; [reflexivity|reflexivity]|]. exists 0%Z. split; [apply Z.le_refl|reflexivity].
    - split; [exact (mutex_step n s s' M St)|]. split; [exact (count_step n s s' C St)|exact (wake_step n s s' M V St)].
  Qed.

  Theorem waits_posts n s : reachable n s -> waits s <= posts s.
  Proof.
    intros H. destruct (inv n s H) as (_ & [C (q & Q & E)] & _). assert (HW : W32 = 4294967296%Z) by reflexivity.
    assert (0 <= q * W32)%Z by lia. lia.
  Qed.
  Theorem none_lost n s : reachable n s -> (Z.of_nat (posts s) - Z.of_nat (waits s) < W32)%Z ->
    count s = (Z.of_nat (posts s) - Z.of_nat (waits s))%Z.
  Proof.
    intros H B. destruct (inv n s H) as (_ & [C (q & Q & E)] & _). assert (HW : W32 = 4294967296%Z) by reflexivity.
    assert (q = 0)%Z by lia. subst q. lia.
  Qed.

  Definition busy (p : pc) : Prop := match p with Idle | WSleep => False | _ => True end.
  Lemma owner_moves n s t : mutex_ok n s -> owner s = Some t -> exists s', step n s s' /\ pcs s' t <> pcs s t /\ busy (pcs s t).
  Proof.
    intros [A B] H. destruct (B t H) as [Lt It]. destruct (pcs s t) as [| | | | | | | |b| | | |] eqn:P; try discriminate It.
    - destruct (Z.eq_dec (count s) 0) as [E|E].
      + eexists. split; [exact (s_wsleep n t s Lt P E)|]. cbn [pcs]. rewrite upd_eq. split; [discriminate|exact I].
      + eexists. split; [exact (s_wdec n t s Lt P E)|]. cbn [pcs]. rewrite upd_eq. split; [discriminate|exact I].
    - eexists. split; [exact (s_wend n t s Lt P)|]. cbn [pcs]. rewrite upd_eq. split; [discriminate|exact I].
    - destruct (Z.eq_dec (count s) 0) as [E|E].
      + eexists. split; [exact (s_tbusy n t s Lt P E)|]. cbn [pcs]. rewrite upd_eq. split; [discriminate|exact I].
      + eexists. split; [exact (s_tdec n t s Lt P E)|]. cbn [pcs]. rewrite upd_eq. split; [discriminate|exact I].
    - eexists. split; [exact (s_tend n t b s Lt P)|]. cbn [pcs]. rewrite upd_eq. split; [discriminate|exact I].
    - eexists. split; [exact (s_pinc n t s Lt P)|]. cbn [pcs]. rewrite upd_eq. split; [discriminate|exact I].
    - eexists. split; [exact (s_pbc n t s Lt P)|]. cbn [pcs]. rewrite upd_eq. split; [discriminate|exact I].
    - eexists. split; [exact (s_pend n t s Lt P)|]. cbn [pcs]. rewrite upd_eq. split; [discriminate|exact I].
  Qed.
  Theorem progress n s t : reachable n s -> t < n -> (Z.of_nat (posts s) - Z.of_nat (waits s) < W32)%Z -> waits s < posts s ->
    pcs s t = WLock \/ pcs s t = WTest \/ pcs s t = WSleep \/ pcs s t = WWoken ->
    exists u s', step n s s' /\ pcs s' u <> pcs s u /\ busy (pcs s u).
  Proof.
    intros Hr Lt Bp Hw Ht. pose proof (none_lost n s Hr Bp) as Ec. destruct (inv n s Hr) as (M & C & V).
    destruct (owner s) as [o|] eqn:O; [destruct (owner_moves n s o M O) as (s' & H); exists o, s'; exact H|].
    destruct Ht as [Ht|[Ht|[Ht|Ht]]].
    - eexists t, _. split; [exact (s_wlock n t s Lt Ht O)|]. cbn [pcs]. rewrite upd_eq, Ht. split; [discriminate|exact I].
    - destruct M as [A _]. pose proof (A t Lt ltac:(rewrite Ht; reflexivity)). congruence.
    - exfalso. destruct M as [A _]. destruct (V t Lt Ht) as [E|(u & Lu & E)]; [lia|]. pose proof (A u Lu ltac:(rewrite E; reflexivity)); congruence.
    - eexists t, _. split; [exact (s_relock n t s Lt Ht O)|]. cbn [pcs]. rewrite upd_eq, Ht. split; [discriminate|exact I].
  Qed.

  (** one thread posting again and again *)
  Lemma posting m : exists s, reachable 1 s /\ owner s = None /\ pcs s 0 = Idle /\ posts s = m /\ waits s = 0 /\ count s = (Z.of_nat m mod W32)%Z.
  Proof.
    induction m as [|m (s & Hr & O & P & Hm & Hw & Hc)].
    - exists init. split; [apply r_init|]. repeat split.
    - assert (L : 0 < 1) by apply Nat.lt_0_succ.
      pose proof (r_step 1 s _ Hr (s_post 1 0 s L P)) as R1.
      match type of R1 with reachable _ ?x => pose proof (r_step 1 x _ R1 (s_plock 1 0 x L (upd_eq _ _ _) O)) as R2 end.
      match type of R2 with reachable _ ?x => pose proof (r_step 1 x _ R2 (s_pinc 1 0 x L (upd_eq _ _ _))) as R3 end.
      match type of R3 with reachable _ ?x => pose proof (r_step 1 x _ R3 (s_pbc 1 0 x L (upd_eq _ _ _))) as R4 end.
      match type of R4 with reachable _ ?x => pose proof (r_step 1 x _ R4 (s_pend 1 0 x L (upd_eq _ _ _))) as R5 end.
      eexists. split; [exact R5|]. cbn [owner pcs posts waits count]. split; [reflexivity|]. split; [apply upd_eq|].
      split; [rewrite Hm; reflexivity|]. split; [exact Hw|]. rewrite Hc, Zplus_mod_idemp_l. f_equal. lia.
  Qed.
End SemP.
