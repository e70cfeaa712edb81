(** Proofs for C105. *)
From Coq Require Import List Arith Bool Lia.
From Verif Require Import DfsModel DfsSpec.
Import ListNotations.

Lemma is_compiled_in m ts : is_compiled m ts = true <-> In (Compiling m) ts.
Proof.
  unfold is_compiled. rewrite existsb_exists. split.
  - intros (t & I & E). destruct t; [|discriminate]. apply Nat.eqb_eq in E. subst. exact I.
  - intros I. exists (Compiling m). split; [exact I | apply Nat.eqb_refl].
Qed.
Lemma is_loaded_fresh m ts : is_loaded m ts = true -> fresh m (rev ts).
Proof.
  induction ts as [|t ts IH]; [discriminate|]. cbn [is_loaded rev]. destruct t as [k|k]; destruct (Nat.eqb_spec k m) as [E|E]; intros H; try discriminate.
  - destruct (IH H) as (a1 & a2 & A & N). exists a1, (a2 ++ [Compiling k]). split; [rewrite A, <- app_assoc; reflexivity|].
    rewrite in_app_iff. intros [I | [I | []]]; [exact (N I) | injection I as ->; contradiction].
  - subst k. exists (rev ts), []. split; [reflexivity | intros []].
  - destruct (IH H) as (a1 & a2 & A & N). exists a1, (a2 ++ [Loading k]). split; [rewrite A, <- app_assoc; reflexivity|].
    rewrite in_app_iff. intros [I | [I | []]]; [exact (N I) | discriminate].
Qed.
(** the plan so far, latest first *)
Fixpoint ok (s : system) (ts : list trans) : Prop :=
  match ts with
  | [] => True
  | Loading m :: a => (forall l, In l (load_env s m) -> is_loaded l a = true) /\ ok s a
  | Compiling m :: a => (forall c, In c (comp_env s m) -> is_loaded c a = true) /\ ok s a
  end.
Lemma ok_app s x a : ok s (x ++ a) -> ok s a.
Proof. induction x as [|t x IH]; [auto|]. destruct t; cbn [app ok]; intros [_ H]; auto. Qed.
Lemma ok_prepared s ts : ok s ts -> prepared s (rev ts).
Proof.
  intros H. assert (G : forall a t b, rev ts = a ++ t :: b -> ok s (t :: rev a)).
  { intros a t b E. apply (f_equal (@rev trans)) in E. rewrite rev_involutive, rev_app_distr in E. cbn [rev] in E. rewrite <- app_assoc in E. rewrite E in H. apply ok_app in H. exact H. }
  split; intros a m b E x I; destruct (G _ _ _ E) as [K _]; rewrite <- (rev_involutive a); apply is_loaded_fresh, K, I.
Qed.
Lemma loads_keep m ls ts : is_loaded m ts = true -> is_loaded m (map Loading ls ++ ts) = true.
Proof. intros H. induction ls as [|x ls IH]; [exact H|]. cbn [map app is_loaded]. destruct (x =? m); auto. Qed.
Lemma loads_in m ls ts : In m ls -> is_loaded m (map Loading ls ++ ts) = true.
Proof. induction ls as [|x ls IH]; [intros []|]. cbn [map app is_loaded]. destruct (Nat.eqb_spec x m); [auto|]. intros [E | I]; [contradiction | auto]. Qed.
Lemma loads_not m ls ts : is_loaded m (map Loading ls ++ ts) = false -> ~ In m ls /\ is_loaded m ts = false.
Proof.
  intros H. split; [intros I; rewrite (loads_in _ _ _ I) in H; discriminate|]. destruct (is_loaded m ts) eqn:E; [|reflexivity]. rewrite (loads_keep _ ls _ E) in H. discriminate.
Qed.
Lemma nodup_app2 {A} (a b : list A) : NoDup a -> NoDup b -> (forall x, In x a -> ~ In x b) -> NoDup (a ++ b).
Proof.
  induction 1 as [|x a N _ IH]; intros B D; [exact B|]. cbn [app]. constructor.
  - rewrite in_app_iff. intros [H | H]; [exact (N H) | exact (D x (or_introl eq_refl) H)].
  - apply IH; [exact B|]. intros y Hy. apply D. right. exact Hy.
Qed.
(** what making something loaded does *)
Definition loads (s : system) (rank : nat -> nat) (bound : nat) (need : nat -> Prop) (ts ts' : list trans) : Prop :=
  exists ls, ts' = map Loading ls ++ ts /\ NoDup ls /\ (forall x, In x ls -> is_loaded x ts = false /\ rank x < bound) /\ (forall m, need m -> is_loaded m ts' = true) /\ (ok s ts -> ok s ts').
Lemma each_loads s rank f bound : forall ms, (forall m ts, In m ms -> exists ts', f m ts = Some ts' /\ loads s rank bound (eq m) ts ts') ->
  forall ts, exists ts', each f ms ts = Some ts' /\ loads s rank bound (fun m => In m ms) ts ts'.
Proof.
  induction ms as [|m ms IH]; intros H ts.
  - exists ts. split; [reflexivity|]. exists []. split; [reflexivity|]. split; [constructor|]. split; [intros x []|]. split; [intros x [] | auto].
  - cbn [each]. destruct (H m ts (or_introl eq_refl)) as (t1 & -> & l1 & E1 & N1 & B1 & M1 & O1). destruct (IH (fun k ts I => H k ts (or_intror I)) t1) as (t2 & -> & l2 & E2 & N2 & B2 & M2 & O2).
    exists t2. split; [reflexivity|]. exists (l2 ++ l1). split; [rewrite E2, E1, map_app, <- app_assoc; reflexivity|]. split.
    + apply nodup_app2; [exact N2 | exact N1|]. intros x X. destruct (B2 x X) as [Y _]. rewrite E1 in Y. apply loads_not in Y. apply Y.
    + split; [|split; [|auto]].
      * intros x X. apply in_app_iff in X. destruct X as [X | X]; [|exact (B1 x X)]. destruct (B2 x X) as [Y R]. rewrite E1 in Y. apply loads_not in Y. split; [apply Y | exact R].
      * intros k [<- | I]; [|exact (M2 k I)]. rewrite E2. apply loads_keep, M1. reflexivity.
Qed.
Lemma make_load_ok s rank : acyclic s rank -> forall fuel m ts, rank m < fuel -> exists ts', make_load s fuel m ts = Some ts' /\ loads s rank (S (rank m)) (eq m) ts ts'.
Proof.
  intros A. induction fuel as [|n IH]; intros m ts L; [lia|]. cbn [make_load]. destruct (is_loaded m ts) eqn:E.
  - exists ts. split; [reflexivity|]. exists []. split; [reflexivity|]. split; [constructor|]. split; [intros x []|]. split; [intros x <-; exact E | auto].
  - destruct (each_loads s rank (make_load s n) (rank m) (load_env s m)) with (ts := ts) as (t1 & -> & l1 & E1 & N1 & B1 & M1 & O1).
    { intros l t I. pose proof (A m l I) as R. destruct (IH l t ltac:(lia)) as (t' & T & ls & X & Y & Z & W). exists t'. split; [exact T|]. exists ls. split; [exact X|]. split; [exact Y|].
      split; [|exact W]. intros x Hx. destruct (Z x Hx) as [Z1 Z2]. split; [exact Z1 | lia]. }
    exists (Loading m :: t1). split; [reflexivity|]. exists (m :: l1). split; [rewrite E1; reflexivity|]. split; [constructor; [|exact N1]; intros I; destruct (B1 m I); lia|].
    split; [|split].
    + intros x [<- | X]; [split; [exact E | lia]|]. destruct (B1 x X). split; [assumption | lia].
    + intros x <-. cbn [is_loaded]. rewrite Nat.eqb_refl. reflexivity.
    + intros O. cbn [ok]. split; [exact M1 | apply O1, O].
Qed.
Lemma loads_compiles ls ts m : In (Compiling m) (map Loading ls ++ ts) <-> In (Compiling m) ts.
Proof. rewrite in_app_iff. split; [intros [H | H]; [|exact H]; apply in_map_iff in H; destruct H as (x & H & _); discriminate | auto]. Qed.
(** compiles of a plan, in order *)
Definition compiles (ts : list trans) : list nat := flat_map (fun t => match t with Compiling m => [m] | Loading _ => [] end) ts.
Lemma compiles_loads ls ts : compiles (map Loading ls ++ ts) = compiles ts.
Proof. induction ls as [|x ls IH]; [reflexivity | exact IH]. Qed.
Lemma compiles_in m ts : In m (compiles ts) <-> In (Compiling m) ts.
Proof.
  unfold compiles. rewrite in_flat_map. split.
  - intros (t & I & H). destruct t; [destruct H as [-> | []]; exact I | destruct H].
  - intros I. exists (Compiling m). split; [exact I | left; reflexivity].
Qed.
Lemma make_compile_ok s rank fuel m ts : acyclic s rank -> (forall c, In c (comp_env s m) -> rank c < fuel) -> exists ts', make_compile s fuel m ts = Some ts' /\
  (ok s ts -> ok s ts') /\ (compiles ts' = if is_compiled m ts then compiles ts else m :: compiles ts).
Proof.
  intros A L. unfold make_compile. destruct (is_compiled m ts) eqn:E; [exists ts; auto|].
  destruct (each_loads s rank (make_load s fuel) fuel (comp_env s m)) with (ts := ts) as (t1 & -> & l1 & E1 & N1 & B1 & M1 & O1).
  { intros l t I. destruct (make_load_ok s rank A fuel l t (L l I)) as (t' & T & ls & X & Y & Z & W). exists t'. split; [exact T|]. exists ls. split; [exact X|]. split; [exact Y|].
    split; [|exact W]. intros x Hx. destruct (Z x Hx) as [Z1 Z2]. specialize (L l I). split; [exact Z1 | lia]. }
  exists (Compiling m :: t1). split; [reflexivity|]. split.
  - intros O. cbn [ok]. split; [exact M1 | apply O1, O].
  - cbn [compiles flat_map app]. f_equal. fold (compiles t1). rewrite E1. apply compiles_loads.
Qed.
