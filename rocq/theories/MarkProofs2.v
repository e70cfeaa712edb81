(** Proofs about the marker, continued: markall and whole collections. *)
From Verif Require Export MarkProofs.

(** ** Specification: the roots and the free cells of the threads *)
Inductive root (r : roots) : nat -> Prop :=
| rt_sys : root r (sysobj r)
| rt_pkg : root r (pkglist r)
| rt_thread c : In c (contexts r) -> root r (threadobj c)
| rt_stack c w : In c (contexts r) -> In w (stack c) -> w mod 8 = 0 -> (w < stack_lo c \/ stack_hi c < w) -> root r w
| rt_specials c : In c (contexts r) -> root r (specials c)
| rt_last c : In c (contexts r) -> lastalloc c <> 0 -> ispointer (lastalloc c) = true -> root r (lastalloc c)
| rt_class w : In w (classtab r) -> ispointer w = true -> root r w.
Definition thread_free (s : state) (n a : nat) : Prop := exists t i, t < n /\ 1 <= i < MAXTHRBUDDY /\ In a (tbuddy s t i).

Lemma context_actions_mark : forall s t c w, In (Mark w) (context_actions s t c) <->
  w = threadobj c \/ (In w (stack c) /\ w mod 8 = 0 /\ (w < stack_lo c \/ stack_hi c < w)) \/ w = specials c \/ (w = lastalloc c /\ lastalloc c <> 0 /\ ispointer (lastalloc c) = true).
Proof.
  intros s t c w. unfold context_actions. cbn [In]. rewrite !in_app_iff. cbn [In].
  assert (A1 : In (Mark w) (map Mark (filter (stack_root c) (stack c))) <-> In w (stack c) /\ w mod 8 = 0 /\ (w < stack_lo c \/ stack_hi c < w)).
  { rewrite in_map_iff. unfold stack_root. split.
    - intros [v [E I]]. injection E as ->. apply filter_In in I as [I1 I2]. apply andb_true_iff in I2 as [I2 I3]. apply Nat.eqb_eq in I2. apply orb_true_iff in I3. rewrite !Nat.ltb_lt in I3. auto.
    - intros [I1 [I2 I3]]. exists w. split; [reflexivity|]. apply filter_In. split; [exact I1|]. apply andb_true_iff. split; [apply Nat.eqb_eq; exact I2|]. apply orb_true_iff. rewrite !Nat.ltb_lt. exact I3. }
  assert (A2 : ~ In (Mark w) (flat_map (fun j => map Markon (tbuddy s t j)) (seq 1 (MAXTHRBUDDY - 1)))).
  { intro I. apply in_flat_map in I as [j [_ I]]. apply in_map_iff in I as [x [E _]]. discriminate E. }
  assert (A3 : In (Mark w) (if negb (Nat.eqb (lastalloc c) 0) && ispointer (lastalloc c) then [Mark (lastalloc c)] else []) <-> w = lastalloc c /\ lastalloc c <> 0 /\ ispointer (lastalloc c) = true).
  { split.
    - destruct (negb (Nat.eqb (lastalloc c) 0) && ispointer (lastalloc c)) eqn:B; [|intros []]. intros [K|[]]. injection K as <-. apply andb_true_iff in B as [B1 B2]. apply negb_true_iff, Nat.eqb_neq in B1. auto.
    - intros [-> [K1 K2]]. apply Nat.eqb_neq in K1. rewrite K1, K2. left. reflexivity. }
  rewrite A1, A3. split.
  - intros [K|[K|[K|[K|K]]]]; [injection K as ->; auto|auto|contradiction|injection K as ->; auto|auto].
  - intros [->|[K|[->|K]]]; auto.
Qed.
Lemma context_actions_markon : forall s t c a, In (Markon a) (context_actions s t c) <-> exists i, 1 <= i < MAXTHRBUDDY /\ In a (tbuddy s t i).
Proof.
  intros s t c a. unfold context_actions. cbn [In]. rewrite !in_app_iff. cbn [In].
  assert (A1 : ~ In (Markon a) (map Mark (filter (stack_root c) (stack c)))) by (rewrite in_map_iff; intros [v [E _]]; discriminate E).
  assert (A3 : ~ In (Markon a) (if negb (Nat.eqb (lastalloc c) 0) && ispointer (lastalloc c) then [Mark (lastalloc c)] else [])).
  { destruct (negb _ && _); [intros [E|[]]; discriminate E|intros []]. }
  assert (A2 : In (Markon a) (flat_map (fun j => map Markon (tbuddy s t j)) (seq 1 (MAXTHRBUDDY - 1))) <-> exists i, 1 <= i < MAXTHRBUDDY /\ In a (tbuddy s t i)).
  { rewrite in_flat_map. split.
    - intros [j [Ij I]]. apply in_map_iff in I as [x [E I]]. injection E as ->. apply in_seq in Ij. exists j. unfold MAXTHRBUDDY in *. split; [lia|exact I].
    - intros [i [Hi I]]. exists i. split; [apply in_seq; unfold MAXTHRBUDDY in *; lia|]. apply in_map_iff. eauto. }
  rewrite A2. split; [|tauto]. intros [K|[K|[K|[K|K]]]]; try contradiction; try discriminate K; exact K.
Qed.
Lemma contexts_actions_mark : forall s cs t w, In (Mark w) (contexts_actions s t cs) <-> exists c t', In c cs /\ In (Mark w) (context_actions s t' c).
Proof.
  intros s cs. induction cs as [|c cs IH]; intros t w; cbn [contexts_actions].
  - split; [intros []|intros [c [t' [[] _]]]].
  - rewrite in_app_iff, IH. split.
    + intros [K|[c' [t' [K1 K2]]]]; [exists c, t; cbn; auto|exists c', t'; cbn; auto].
    + intros [c' [t' [[<-|K1] K2]]]; [left|right; eauto]. rewrite context_actions_mark in *. exact K2.
Qed.
Lemma contexts_actions_markon : forall s cs t a, In (Markon a) (contexts_actions s t cs) <-> exists u i, t <= u < t + length cs /\ 1 <= i < MAXTHRBUDDY /\ In a (tbuddy s u i).
Proof.
  intros s cs. induction cs as [|c cs IH]; intros t a; cbn [contexts_actions length].
  - split; [intros []|intros [u [i [H _]]]; lia].
  - rewrite in_app_iff, IH, context_actions_markon. split.
    + intros [[i [H1 H2]]|[u [i [H1 [H2 H3]]]]]; [exists t, i|exists u, i]; repeat split; auto; lia.
    + intros [u [i [H1 [H2 H3]]]]. destruct (Nat.eq_dec u t) as [->|N]; [left; eauto|]. right. exists u, i. repeat split; auto; lia.
Qed.
Lemma markall_mark : forall s r w, In (Mark w) (markall_actions s r) <-> root r w.
Proof.
  intros s r w. unfold markall_actions. cbn [In]. rewrite in_app_iff, contexts_actions_mark.
  assert (C : In (Mark w) (map Mark (filter ispointer (classtab r))) <-> In w (classtab r) /\ ispointer w = true).
  { rewrite in_map_iff. split; [intros [v [E I]]; injection E as ->; apply filter_In; exact I|]. intro I. exists w. split; [reflexivity|]. apply filter_In. exact I. }
  rewrite C. split.
  - intros [K|[K|[[c [t [K1 K2]]]|[K1 K2]]]]; [injection K as <-; constructor|injection K as <-; constructor| |apply rt_class; assumption].
    apply context_actions_mark in K2 as [->|[[I1 [I2 I3]]|[->|[-> [I1 I2]]]]]; [apply rt_thread|apply (rt_stack r c)|apply rt_specials|apply rt_last]; assumption.
  - intro K. destruct K as [| |c K|c w K1 K2 K3 K4|c K|c K1 K2 K3|w K1 K2]; [auto|auto|..]; try (right; right; right; auto; fail); right; right; left; exists c, 0; (split; [assumption|]); apply context_actions_mark; tauto.
Qed.
Lemma markall_markon : forall s r a, In (Markon a) (markall_actions s r) <-> thread_free s (length (contexts r)) a.
Proof.
  intros s r a. unfold markall_actions. cbn [In]. rewrite in_app_iff, contexts_actions_markon.
  assert (C : ~ In (Markon a) (map Mark (filter ispointer (classtab r)))) by (rewrite in_map_iff; intros [v [E _]]; discriminate E).
  unfold thread_free. split.
  - intros [K|[K|[[u [i [K1 [K2 K3]]]]|K]]]; [discriminate K|discriminate K| |contradiction]. exists u, i. repeat split; auto; lia.
  - intros [u [i [K1 [K2 K3]]]]. right. right. left. exists u, i. repeat split; auto; lia.
Qed.
(** ** markall *)
Definition total (s : state) (L : list nat) : nat := list_sum (map (fun a => size (hbix (head s a))) L).
Lemma weight_le_total : forall s M L, weight s M L <= total s L.
Proof. intros s M L. unfold weight, total. induction L as [|a L IH]; [cbn; lia|]. cbn [map]. change (list_sum (?x :: ?l)) with (x + list_sum l). destruct (M a); lia. Qed.
Lemma reach_mono : forall o s (R : nat -> Prop) (F G : nat -> Prop), (forall a, G a -> F a) -> forall a, reach o s R F a -> reach o s R G a.
Proof. intros o s R F G H a K. induction K as [w K I|b w K IH Nf P I]; [apply r_root; auto|]. eapply r_step; eauto. Qed.
Lemma markall_ok : forall f o s L g r, NoDup L -> stack_ok g -> total s L + 1 < f ->
  (forall a, In a L -> hmark (head s a) = false) ->
  (forall w, root r w \/ (exists a, reach o s (root r) nowhere a /\ points o s a w) -> in_heap o s w -> w mod 8 = 0 /\ In (w / 8) L) ->
  exists M g', markall f o s g r = Ret (M, g') /\ stack_ok g' /\
    (forall a, reach o s (root r) (thread_free s (length (contexts r))) a -> M a = true) /\
    (forall a, thread_free s (length (contexts r)) a -> M a = true) /\
    (forall a, M a = true -> hmark (head s a) = true \/ reach o s (root r) nowhere a \/ thread_free s (length (contexts r)) a).
Proof.
  intros f o s L g r NL Sg Hf Hm V. set (F := thread_free s (length (contexts r))).
  destruct (run_actions_ok o s L (root r) (fun a => F a \/ ~ In a L) NL V f (markall_actions s r) (fun a => hmark (head s a)) g Sg) as [M [g' [E1 [E2 [E3 [E4 [E5 [E6 E7]]]]]]]].
  - pose proof (weight_le_total s (fun a => hmark (head s a)) L). lia.
  - constructor; auto; [intros w []|]. intros a w E Nf _ _. exfalso. apply Nf. right. intro I. rewrite (Hm a I) in E. discriminate E.
  - intros w I. apply markall_mark in I. exact I.
  - intros a I. left. apply markall_markon in I. exact I.
  - exists M, g'. split; [exact E1|]. split; [exact E2|].
    assert (RL : forall a, reach o s (root r) nowhere a -> In a L). { intros a K. destruct K as [w K I|b w K Nf P I]; apply V; eauto. }
    split; [|split].
    + intros a K. induction K as [w K I|b w K IH Nf P I]; [apply E5; [apply markall_mark; exact K|exact I]|].
      apply (E7 b w IH); [|exact P|exact I]. intros [Q|Q]; [contradiction|]. apply Q, RL. eapply reach_mono; [|exact K]. intros x [].
    + intros a K. apply E6. apply markall_markon. exact K.
    + intros a K. destruct (E4 a K) as [Q|[Q|Q]]; auto. apply markall_markon in Q. auto.
Qed.

(** ** Histories *)
(** the allocated objects that the program can get hold of *)
Section Used.
Variables (o : objs) (s : state) (r : roots) (A : list nat).
Inductive used : nat -> Prop :=
| u_root a : root r (8 * a) -> In a A -> used a
| u_step a b : used a -> points o s a (8 * b) -> In b A -> used b.
(** no dangling pointers: words in the heap range are pointers to allocated objects *)
Definition no_dangling : Prop := forall w, root r w \/ (exists a, used a /\ points o s a w) -> in_heap o s w -> exists b, w = 8 * b /\ In b A.
End Used.
Lemma div8 : forall b, 8 * b / 8 = b. Proof. intro b. rewrite Nat.mul_comm. apply Nat.div_mul. lia. Qed.
Lemma mod8 : forall b, (8 * b) mod 8 = 0. Proof. intro b. rewrite Nat.mul_comm. apply Nat.mod_mul. lia. Qed.
Lemma history_in_heap : forall N s A o, history N s A -> forall a, In a A -> in_heap o s (8 * a).
Proof.
  intros N s A o H a I. destruct (history_inv N s A H) as [L V]. destruct (v_cell _ _ _ _ V User a I) as [C _]. destruct (geo_in _ _ _ a (v_geo _ _ _ _ V) C) as [ck [I1 [B1 [B2 _]]]].
  pose proof (size_ge (hbix (head s a))). unfold in_heap, out_of_heap. apply negb_false_iff. apply andb_true_iff. split; [|apply orb_true_iff; left]; apply existsb_exists; exists ck; (split; [exact I1|]); apply Nat.leb_le; lia.
Qed.
Lemma used_in : forall o s r A a, used o s r A a -> In a A. Proof. intros o s r A a H. destruct H; assumption. Qed.
Lemma used_reach : forall N s A o r, history N s A -> no_dangling o s r A -> forall a, used o s r A a <-> reach o s (root r) nowhere a.
Proof.
  intros N s A o r H Nd a. split; intro K.
  - induction K as [a K I|a b K IH P I].
    + assert (Ih := history_in_heap N s A o H a I). rewrite <- (div8 a). apply r_root; assumption.
    + assert (Ih := history_in_heap N s A o H b I). rewrite <- (div8 b). eapply r_step; [exact IH|intros []|exact P|exact Ih].
  - induction K as [w K I|a w K IH Nf P I].
    + destruct (Nd w (or_introl K) I) as [b [-> Ib]]. rewrite div8. apply u_root; assumption.
    + destruct (Nd w (or_intror (ex_intro _ a (conj IH P))) I) as [b [-> Ib]]. rewrite div8. eapply u_step; eassumption.
Qed.
Lemma reach_avoid : forall o s R (F : nat -> Prop), (forall a, F a -> ~ reach o s R nowhere a) -> forall a, reach o s R nowhere a -> reach o s R F a.
Proof. intros o s R F H a K. induction K as [w K I|b w K IH Nf P I]; [apply r_root; auto|]. eapply r_step; eauto. intro Q. exact (H b Q K). Qed.
Lemma consecutive_total : forall s ls a z, consecutive (head s) a ls z -> a + total s ls = z.
Proof.
  intros s. induction ls as [|x ls IH]; intros a z C; cbn [consecutive] in C; [unfold total; cbn; lia|]. destruct C as [-> C]. apply IH in C. unfold total in *. cbn [map]. change (list_sum (?x :: ?l)) with (x + list_sum l). lia.
Qed.
Definition heap_size (s : state) : nat := list_sum (map (fun ck => size (snd ck)) (chunks s)).
Lemma total_app : forall s l1 l2, total s (l1 ++ l2) = total s l1 + total s l2.
Proof. intros s l1 l2. unfold total. rewrite map_app. apply list_sum_app. Qed.
Lemma geo_total : forall s L, geo (head s) (chunks s) L -> total s (concat L) = heap_size s.
Proof.
  intros s L [T _ _]. unfold heap_size. induction T as [|ck ls cs L T1 T2 IH]; [reflexivity|]. cbn [concat map]. change (list_sum (?x :: ?l)) with (x + list_sum l). rewrite total_app, IH.
  apply tiles_consecutive in T1. apply consecutive_total in T1. lia.
Qed.
(** what is assumed of a collection *)
Record collect_ok (N : nat) (s : state) (e : env) (g : gstack) (r : roots) : Prop := {
  ck_malloc : malloc_ok e; ck_nthr : nthr e = N; ck_ctx : length (contexts r) = N; ck_fuel : heap_size s + 1 < fuel e; ck_stack : stack_ok g }.
Lemma collect_garbage_ok : forall N s A e o g r, history N s A -> collect_ok N s e g r -> no_dangling o s r A ->
  exists s' g' A', collect_garbage e o s g r = Ret (s', g') /\ stack_ok g' /\ chunks s' = chunks s /\
    history N s' A' /\ (forall a, In a A' <-> In a A /\ (used o s r A a \/ hnod (head s a) = true)) /\
    (forall a, In a A' -> hbix (head s' a) = hbix (head s a) /\ forall off, 0 < off < size (hbix (head s a)) -> mem s' (a + off) = mem s (a + off)) /\
    (forall a, used o s' r A' a <-> used o s r A a) /\ no_dangling o s' r A' /\
    (forall x, cell s' x -> In x A' \/ hnod (head s x) = true \/ (exists t i, In x (tbuddy s' t i)) \/ In x (buddy s' (hbix (head s' x)))).
Proof.
  intros N s A e o g r H [K1 K2 K3 K4 K5] Nd. destruct (history_inv N s A H) as [L V]. assert (G := v_geo _ _ _ _ V).
  assert (NL : NoDup (concat L)) by (eapply tiles_all_NoDup; [apply (g_tiles _ _ _ G)|apply (g_disj _ _ _ G)]).
  assert (UR := used_reach N s A o r H Nd).
  assert (AL : forall a, In a A -> In a (concat L)) by (intros a I; apply (v_cell _ _ _ _ V User a I)).
  destruct (markall_ok (fuel e) o s (concat L) g r NL K5) as [M [g' [E1 [E2 [E3 [E4 E5]]]]]].
  { rewrite (geo_total s L G). exact K4. }
  { apply (v_mark _ _ _ _ V). }
  { intros w Hw I. destruct (Nd w) as [b [-> Ib]]; [|exact I|].
    - destruct Hw as [Hw|[a [Ha P]]]; [auto|]. right. exists a. split; [apply UR; exact Ha|exact P].
    - rewrite mod8, div8. auto. }
  assert (TF : forall a, thread_free s (length (contexts r)) a -> ~ In a A).
  { intros a [t [i [_ [_ I]]]]. apply (inv_free_not_user N s L A (Thr t i) a V I). discriminate. }
  assert (TC : forall a, thread_free s (length (contexts r)) a -> In a (concat L)). { intros a [t [i [_ [_ I]]]]. apply (v_cell _ _ _ _ V (Thr t i) a I). }
  assert (MA : forall a, newly s M a = true <-> used o s r A a \/ thread_free s (length (contexts r)) a).
  { intro a. unfold newly. rewrite andb_true_iff, negb_true_iff. split.
    - intros [Q1 Q2]. destruct (E5 a Q1) as [Q|[Q|Q]]; [congruence|left; apply UR; exact Q|auto].
    - intros Q. assert (Ia : In a (concat L)) by (destruct Q as [Q|Q]; [apply AL; eapply used_in; exact Q|apply TC; exact Q]).
      split; [|apply (v_mark _ _ _ _ V); exact Ia]. destruct Q as [Q|Q]; [|apply E4; exact Q]. apply E3. apply reach_avoid; [|apply UR; exact Q].
      intros b Fb Rb. apply (TF b Fb). apply UR in Rb. eapply used_in. exact Rb. }
  set (e' := mkEnv (malloc e) (short e) (merge_limit e) (newly s M) (nthr e) (fuel e)).
  assert (Fl : Forall (fun ck => size (snd ck) < fuel e') (chunks s)).
  { rewrite Forall_forall. intros ck I. cbn [e' HeapModel.fuel]. unfold heap_size in K4. apply (in_map (fun ck => size (snd ck))) in I. clear - K4 I. revert K4. generalize (fuel e). induction (map (fun ck => size (snd ck)) (chunks s)) as [|x l IH]; [destruct I|]. change (list_sum (x :: l)) with (x + list_sum l). intros n Hn. destruct I as [->|I]; [lia|]. apply IH; [exact I|lia]. }
  assert (Eo : env_ok N s e').
  { constructor; auto. cbn [e' live]. intros x Hx. apply (cell_iff s L x G). apply MA in Hx as [Hx|Hx]; [apply AL; eapply used_in; exact Hx|apply TC; exact Hx]. }
  destruct (history_gc N s A e' H Eo) as [s' [G1 [G2 [G3 [G4 [G5 [G6 G7]]]]]]].
  assert (H' : history N s' (survivors e' s A)) by (eapply h_gc; eassumption).
  assert (IA : forall a, In a (survivors e' s A) <-> In a A /\ (used o s r A a \/ hnod (head s a) = true)).
  { intro a. unfold survivors. rewrite filter_In. unfold survives. cbn [e' live]. rewrite orb_true_iff, MA. split; [|tauto]. intros [Q1 [[Q|Q]|Q]]; auto. exfalso. exact (TF a Q Q1). }
  assert (Ct : forall a, In a (survivors e' s A) -> hbix (head s' a) = hbix (head s a) /\ forall off, 0 < off < size (hbix (head s a)) -> mem s' (a + off) = mem s (a + off)).
  { intros a I. apply IA in I as [I1 I2]. destruct (G4 a) as [_ [B1 [_ B2]]]; [apply (cell_iff s L a G); auto| |split; [exact B1|exact B2]].
    destruct I2 as [I2|I2]; [left; apply MA; auto|auto]. }
  assert (Pt : forall a w, In a (survivors e' s A) -> (points o s' a w <-> points o s a w)).
  { intros a w I. destruct (Ct a I) as [B1 B2]. unfold points. rewrite B1. split; intros [P1 [i [P2 [P3 P4]]]]; (split; [exact P1|]); exists i; (split; [exact P2|]); (split; [|exact P4]); subst w.
    - apply B2. destruct P4 as [_ P4]. destruct (elm o a); [lia|lia|destruct P4].
    - symmetry. apply B2. destruct P4 as [_ P4]. destruct (elm o a); [lia|lia|destruct P4]. }
  assert (Us : forall a, used o s' r (survivors e' s A) a <-> used o s r A a).
  { intro a. split; intro U.
    - induction U as [a U I|a b U IH P I]; [apply u_root; [exact U|apply IA in I; tauto]|]. eapply u_step; [exact IH| |apply IA in I; tauto]. apply (Pt a); [eapply used_in; exact U|exact P].
    - induction U as [a U I|a b U IH P I]; [apply u_root; [exact U|apply IA; split; [exact I|left; apply u_root; assumption]]|].
      eapply u_step; [exact IH|apply Pt; [eapply used_in; exact IH|exact P]|apply IA; split; [exact I|left; eapply u_step; eassumption]]. }
  exists s', g', (survivors e' s A). split; [unfold collect_garbage; rewrite E1; cbn [bind fst snd]; fold e'; rewrite G1; reflexivity|].
  split; [exact E2|]. split; [exact G2|]. split; [exact H'|]. split; [exact IA|]. split; [exact Ct|]. split; [exact Us|]. split.
  - intros w Hw I. assert (I0 : in_heap o s w) by (unfold in_heap, out_of_heap in *; rewrite G2 in I; exact I).
    destruct Hw as [Hw|[a [Ha P]]].
    + destruct (Nd w (or_introl Hw) I0) as [b [-> Ib]]. exists b. split; [reflexivity|]. apply IA. split; [exact Ib|]. left. apply u_root; assumption.
    + assert (P' : points o s a w) by (apply Pt; [eapply used_in; exact Ha|exact P]). apply Us in Ha. destruct (Nd w (or_intror (ex_intro _ a (conj Ha P'))) I0) as [b [-> Ib]]. exists b. split; [reflexivity|].
      apply IA. split; [exact Ib|]. left. eapply u_step; eassumption.
  - intros x Cx. destruct (G5 x Cx) as [C0 [Q|[Q|[Q|Q]]]]; [|auto|right; right; left; rewrite G3; exact Q|auto].
    cbn [e' live] in Q. apply MA in Q as [Q|[t [i [_ [_ Q]]]]]; [left; apply IA; split; [eapply used_in; exact Q|auto]|]. right. right. left. rewrite G3. eauto.
Qed.
