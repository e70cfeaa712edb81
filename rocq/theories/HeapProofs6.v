(** Proofs about the allocator, continued: histories. *)
From Verif Require Export HeapProofs5.

(** ** Specification: the heap as seen by a walk over the headers *)
Definition cell (s : state) (x : nat) : Prop := exists c k ls, In (c, k) (chunks s) /\ consecutive (head s) c ls (c + size k) /\ In x ls.
Definition apart (s : state) (x y : nat) : Prop := x + size (hbix (head s x)) <= y \/ y + size (hbix (head s y)) <= x.
Definition empty_state : state :=
  mkState (fun _ => mkHdr false false false 0 false) (fun _ => []) (fun _ => 0%Z) (fun _ _ => []) (fun _ _ => 0%Z) [] 0 0 (fun _ => 0).
(** what is assumed of the surroundings of an operation *)
Record env_ok (N : nat) (s : state) (e : env) : Prop := {
  eo_malloc : malloc_ok e;                                                       (* malloc gives memory not in use *)
  eo_live : forall x, live e x = true -> cell s x;                               (* only cells are marked *)
  eo_nthr : nthr e = N;
  eo_fuel : Forall (fun ck => size (snd ck) < fuel e) (chunks s) }.
(** the states reached by allocations and collections; A are the allocated cells, those not kept by a collection being dropped *)
Inductive history (N : nat) : state -> list nat -> Prop :=
| h_empty : history N empty_state []
| h_alloc s A e t n s' b g : history N s A -> env_ok N s e -> t < N -> n + 1 <= size 38 -> gc_alloc e t s n = Ret (s', b, g) -> history N s' (b :: after_gc g e s A)
| h_gc s A e s' : history N s A -> env_ok N s e -> gc e s = Ret s' -> history N s' (survivors e s A)
| h_flag s A a v : history N s A -> In a A -> history N (set_head s a (mkHdr (hmark (head s a)) (hb (head s a)) (hm (head s a)) (hbix (head s a)) v)) A
| h_write s A a off v : history N s A -> In a A -> 0 < off < size (hbix (head s a)) -> history N (set_word s (a + off) v) A.

Lemma consecutive_det : forall H l1 a z l2, consecutive H a l1 z -> consecutive H a l2 z -> l1 = l2.
Proof.
  intros H. induction l1 as [|x l1 IH]; intros a z l2 K1 K2; cbn in K1.
  - subst z. destruct l2 as [|y l2]; [reflexivity|]. cbn in K2. destruct K2 as [-> K2]. apply consecutive_le in K2. pose proof (size_ge (hbix (H a))). lia.
  - destruct K1 as [-> K1]. destruct l2 as [|y l2]; cbn in K2.
    + subst z. apply consecutive_le in K1. pose proof (size_ge (hbix (H a))). lia.
    + destruct K2 as [-> K2]. f_equal. eapply IH; eassumption.
Qed.
Lemma Forall2_in_l : forall {A B} (R : A -> B -> Prop) l1 l2 x, Forall2 R l1 l2 -> In x l1 -> exists y, In y l2 /\ R x y.
Proof. intros A B R l1 l2 x F I. induction F as [|a b l1 l2 Rab F IH]; [destruct I|]. destruct I as [<-|I]; [exists b; cbn; auto|]. destruct (IH I) as [y [J1 J2]]. exists y; cbn; auto. Qed.
Lemma cell_iff : forall s L x, geo (head s) (chunks s) L -> (cell s x <-> In x (concat L)).
Proof.
  intros s L x G. split.
  - intros [c [k [ls [I1 [C I2]]]]]. destruct (Forall2_in_l _ _ _ _ (g_tiles _ _ _ G) I1) as [l2 [J1 T]]. apply tiles_consecutive in T. cbn [fst snd] in T.
    rewrite (consecutive_det _ _ _ _ _ C T) in I2. apply in_concat. eauto.
  - intro I. apply in_concat in I. destruct I as [ls [I1 I2]]. destruct (Forall2_in_r _ _ _ _ (g_tiles _ _ _ G) I1) as [[c k] [J1 T]]. apply tiles_consecutive in T. exists c, k, ls. auto.
Qed.
Lemma perm_inv : forall N s L A B, Permutation A B -> Inv N s L A -> Inv N s L B.
Proof.
  intros N s L A B P [V1 V2 V3 V4 V5 V6 V7 V8]. assert (Q : forall o x, In x (owned s B o) <-> In x (owned s A o)).
  { intros o x. destruct o; cbn; try tauto. split; intro I; [eapply Permutation_in; [apply Permutation_sym; exact P|exact I]|eapply Permutation_in; [exact P|exact I]]. }
  constructor; auto.
  - intros o x I. apply Q in I. apply V2. exact I.
  - intros o o' x I I'. apply Q in I, I'. apply (V3 _ _ x I I').
  - intros o. specialize (V4 o). destruct o; auto. cbn in *. eapply Permutation_NoDup; eassumption.
Qed.
Lemma inv_empty : forall N, Inv N empty_state [] [].
Proof.
  intro N. constructor.
  - constructor; constructor.
  - intros o x I. destruct o; destruct I.
  - intros o o' x I. destruct o; destruct I.
  - intros o. destruct o; constructor.
  - intros x [].
  - intros t i H. cbn in H. congruence.
  - reflexivity.
  - reflexivity.
Qed.
Lemma history_inv : forall N s A, history N s A -> exists L, Inv N s L A.
Proof.
  intros N s A H. induction H as [|s A e t n s' b g H [L V] [E1 E2 E3 E4] Ht Hn E|s A e s' H [L V] [E1 E2 E3 E4] E|s A a v H [L V] I|s A a off v H [L V] I Ho].
  - exists []. apply inv_empty.
  - assert (R := gc_alloc_ok e N t s L A n E1 E3 Ht V (fun x Hx => proj1 (cell_iff s L x (v_geo _ _ _ _ V)) (E2 x Hx)) E4 Hn). rewrite E in R. destruct R as [L' [V' _]]. exists L'. exact V'.
  - destruct (gc_inv e N s L A E3 V (fun x Hx => proj1 (cell_iff s L x (v_geo _ _ _ _ V)) (E2 x Hx)) E4) as [s1 [L' [fr [E' [_ [V' _]]]]]]. exists L'. congruence.
  - exists L. apply in_split in I as [l1 [l2 ->]]. apply (perm_inv N s L _ (a :: l1 ++ l2)) in V; [|apply Permutation_sym, Permutation_middle].
    destruct (set_nod_inv N s L (l1 ++ l2) a v V) as [V' _]. eapply perm_inv; [|exact V']. apply Permutation_middle.
  - exists L. destruct V as [V1 V2 V3 V4 V5 V6 V7 V8]. constructor; auto.
Qed.

(** the partition of the heap *)
Lemma history_heap : forall N s A, history N s A ->
  (forall c k, In (c, k) (chunks s) -> exists ls, consecutive (head s) c ls (c + size k)) /\
  ForallOrdPairs disj (chunks s) /\
  (forall x y, cell s x -> cell s y -> x <> y -> apart s x y) /\
  (forall a, In a A -> cell s a) /\ NoDup A /\
  (forall i x, In x (buddy s i) -> cell s x /\ hbix (head s x) = i /\ ~ In x A /\ forall t j, ~ In x (tbuddy s t j)) /\
  (forall i, NoDup (buddy s i)) /\
  (forall t i x, In x (tbuddy s t i) -> cell s x /\ hbix (head s x) = i /\ ~ In x A /\ forall u j, In x (tbuddy s u j) -> u = t) /\
  (forall t i, NoDup (tbuddy s t i)).
Proof.
  intros N s A H. destruct (history_inv N s A H) as [L V]. assert (G := v_geo _ _ _ _ V).
  split; [|split; [|split; [|split; [|split; [|split; [|split; [|split]]]]]]].
  - intros c k I. destruct (Forall2_in_l _ _ _ _ (g_tiles _ _ _ G) I) as [ls [_ T]]. exists ls. apply tiles_consecutive in T. exact T.
  - apply (g_disj _ _ _ G).
  - intros x y Cx Cy. apply (cell_iff s L _ G) in Cx, Cy. apply (geo_apart _ _ _ G); assumption.
  - intros a I. apply (cell_iff s L _ G). apply (v_cell _ _ _ _ V User a I).
  - apply (v_nodup _ _ _ _ V User).
  - intros i x I. destruct (v_cell _ _ _ _ V (Root i) x I) as [C B]. split; [apply (cell_iff s L _ G); exact C|]. split; [exact B|]. split.
    + apply (inv_free_not_user N s L A (Root i) x V I). discriminate.
    + intros t j J. assert (K := v_uniq _ _ _ _ V (Root i) (Thr t j) x I J). discriminate K.
  - intros i. apply (v_nodup _ _ _ _ V (Root i)).
  - intros t i x I. destruct (v_cell _ _ _ _ V (Thr t i) x I) as [C B]. split; [apply (cell_iff s L _ G); exact C|]. split; [exact B|]. split.
    + apply (inv_free_not_user N s L A (Thr t i) x V I). discriminate.
    + intros u j J. assert (K := v_uniq _ _ _ _ V (Thr t i) (Thr u j) x I J). congruence.
  - intros t i. apply (v_nodup _ _ _ _ V (Thr t i)).
Qed.
(** an allocation *)
Lemma history_alloc : forall N s A e t n, history N s A -> env_ok N s e -> t < N -> n + 1 <= size 38 ->
  gc_alloc e t s n = Hang \/
  exists s' b g, gc_alloc e t s n = Ret (s', b, g) /\
    cell s' b /\ n + 1 <= size (hbix (head s' b)) /\ (forall off, 0 < off < size (hbix (head s' b)) -> mem s' (b + off) = 0) /\
    (forall a, In a A -> (g = true -> live e a = true \/ hnod (head s a) = true) ->
       a <> b /\ cell s' a /\ apart s' a b /\ hbix (head s' a) = hbix (head s a) /\
       forall off, 0 < off < size (hbix (head s a)) -> mem s' (a + off) = mem s (a + off)).
Proof.
  intros N s A e t n H Eo Ht Hn. destruct (history_inv N s A H) as [L V]. assert (Eo' := Eo). destruct Eo' as [E1 E2 E3 E4].
  assert (R := gc_alloc_ok e N t s L A n E1 E3 Ht V (fun x Hx => proj1 (cell_iff s L x (v_geo _ _ _ _ V)) (E2 x Hx)) E4 Hn).
  destruct (gc_alloc e t s n) as [[[s' b] g]| | |] eqn:E; [right|destruct R|left; reflexivity|destruct R].
  destruct R as [L' [V' [S' [R1 [R2 R3]]]]]. assert (G := v_geo _ _ _ _ V').
  assert (Cb : In b (concat L')) by (apply (v_cell _ _ _ _ V' User b); left; reflexivity).
  exists s', b, g. split; [reflexivity|]. split; [apply (cell_iff s' L' _ G); exact Cb|]. split; [exact R1|]. split; [exact R3|].
  intros a I Lg. assert (Ia : In a (after_gc g e s A)).
  { destruct g; [|exact I]. apply filter_In. split; [exact I|]. unfold survives. destruct (Lg eq_refl) as [-> | ->]; [reflexivity|apply orb_true_r]. }
  assert (Ca : In a (concat L')) by (apply (v_cell _ _ _ _ V' User a); right; exact Ia).
  assert (Nab : a <> b). { intros ->. assert (Nd := v_nodup _ _ _ _ V' User). cbn in Nd. apply NoDup_cons_iff in Nd. tauto. }
  destruct (S' a Ia) as [S1 S2]. split; [exact Nab|]. split; [apply (cell_iff s' L' _ G); exact Ca|]. split; [apply (geo_apart _ _ _ G); assumption|]. split; [exact S1|exact S2].
Qed.
(** a collection *)
Lemma history_gc : forall N s A e, history N s A -> env_ok N s e ->
  exists s', gc e s = Ret s' /\ chunks s' = chunks s /\ tbuddy s' = tbuddy s /\
    (* kept: what the marker marked, the free cells of the threads, the cells with a dispose hook *)
    (forall a, cell s a -> live e a = true \/ hnod (head s a) = true \/ (exists t i, In a (tbuddy s t i)) ->
       cell s' a /\ hbix (head s' a) = hbix (head s a) /\ (forall i, ~ In a (buddy s' i)) /\
       forall off, 0 < off < size (hbix (head s a)) -> mem s' (a + off) = mem s (a + off)) /\
    (* all other cells are on the free list of their index *)
    (forall x, cell s' x -> cell s x /\ (live e x = true \/ hnod (head s x) = true \/ (exists t i, In x (tbuddy s t i)) \/ In x (buddy s' (hbix (head s' x))))) /\
    (forall i x, In x (buddy s' i) -> cell s' x /\ hbix (head s' x) = i) /\ (forall i, NoDup (buddy s' i)).
Proof.
  intros N s A e H Eo. destruct (history_inv N s A H) as [L V]. assert (Eo' := Eo). destruct Eo' as [E1 E2 E3 E4]. assert (G := v_geo _ _ _ _ V).
  destruct (gc_inv e N s L A E3 V (fun x Hx => proj1 (cell_iff s L x G) (E2 x Hx)) E4) as [s' [L' [fr [E' [C [V' S']]]]]].
  destruct C as [C1 C2 C3 C4 C5 C6 C7 C8 C9 C10 C11 C12 C13]. destruct C11 as [T1 [T2 [T3 T4]]].
  assert (G' := v_geo _ _ _ _ V').
  assert (St : forall x, stays e s x = true <-> live e x = true \/ hnod (head s x) = true \/ exists t i, In x (tbuddy s t i)).
  { intro x. unfold stays. rewrite !orb_true_iff, in_threads_spec. split; [intros [[K|[t [i [_ [_ K]]]]]|K]; eauto|].
    intros [K|[K|[t [i K]]]]; auto. left. right. exists t, i. destruct (v_thr _ _ _ _ V t i) as [K1 K2]; [intro Q; rewrite Q in K; destruct K|]. split; [lia|]. auto. }
  assert (Bd : forall i x, In x (buddy s' i) -> In x fr).
  { intros i x I. destruct (Nat.le_gt_cases i 38) as [Hi|Hi]; [apply C6 in I; tauto|]. assert (K := inv_root_ix N s' L' _ i x V' I). lia. }
  exists s'. split; [exact E'|]. split; [exact T3|]. split; [exact T1|]. split; [|split; [|split]].
  - intros a Ca Sa. apply (cell_iff s L _ G) in Ca. apply St in Sa. destruct (C2 a Ca Sa) as [K1 [K2 K3]]. split; [apply (cell_iff s' L' _ G'); exact K1|]. split; [exact K3|]. split.
    + intros i I. apply Bd in I. contradiction.
    + intros off Ho. apply C13; assumption.
  - intros x Cx. apply (cell_iff s' L' _ G') in Cx. destruct (C3 x Cx) as [K1 K2]. split; [apply (cell_iff s L _ G); exact K1|]. destruct K2 as [K2|K2].
    + right. right. right. apply C6; [|auto]. destruct (geo_in _ _ _ x G' Cx) as [ck [_ [_ [_ K]]]]. lia.
    + apply St in K2. tauto.
  - intros i x I. destruct (v_cell _ _ _ _ V' (Root i) x I) as [K1 K2]. split; [apply (cell_iff s' L' _ G'); exact K1|exact K2].
  - intros i. apply (v_nodup _ _ _ _ V' (Root i)).
Qed.
