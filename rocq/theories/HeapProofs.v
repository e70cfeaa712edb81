(** Proofs about the allocator: tilings, splitting and merging. *)
From Verif Require Export HeapModel.
From Coq Require Export Permutation.

Lemma NoDup_app_parts : forall {A} (l1 l2 : list A), NoDup (l1 ++ l2) -> NoDup l1 /\ NoDup l2 /\ (forall x, In x l1 -> ~ In x l2).
Proof.
  intros A. induction l1 as [|y l1 IH]; intros l2 N; cbn in N; [repeat split; auto; constructor|].
  inversion N as [|? ? N1 N2]; subst. destruct (IH l2 N2) as [I1 [I2 I3]]. repeat split; auto.
  - constructor; auto. intro I. apply N1, in_or_app. auto.
  - intros x [<-|I]; [intro J; apply N1, in_or_app; auto|apply I3; exact I].
Qed.
Lemma NoDup_app_make : forall {A} (l1 l2 : list A), NoDup l1 -> NoDup l2 -> (forall x, In x l1 -> ~ In x l2) -> NoDup (l1 ++ l2).
Proof.
  intros A. induction l1 as [|y l1 IH]; intros l2 N1 N2 D; cbn; [exact N2|]. inversion N1; subst. constructor.
  - intro I. apply in_app_or in I. destruct I as [I|I]; [contradiction|]. apply (D y); [left; reflexivity|exact I].
  - apply IH; auto. intros x I. apply D. right. exact I.
Qed.

(** ** Sizes *)
Lemma size_SS : forall k, size (S (S k)) = size k + size (S k).
Proof. intro k. unfold size. cbn [size2]. destruct (size2 k) as [a b]. cbn. reflexivity. Qed.
Lemma size_0 : size 0 = 3. Proof. reflexivity. Qed.
Lemma size_1 : size 1 = 3. Proof. reflexivity. Qed.
Lemma size_ge : forall k, 3 <= size k.
Proof.
  intro k. assert (3 <= size k /\ 3 <= size (S k)) as [H _]; [|exact H]. induction k as [|k [IH1 IH2]]; [rewrite size_0, size_1; lia|].
  split; [exact IH2|]. rewrite size_SS. lia.
Qed.
Lemma size_mono1 : forall k, size k <= size (S k).
Proof. intros [|k]; [rewrite size_0, size_1; lia|]. rewrite size_SS. lia. Qed.
Lemma size_mono : forall j k, j <= k -> size j <= size k.
Proof. induction 1; [lia|]. pose proof (size_mono1 m). lia. Qed.
(** index of the right part of a split cell *)
Definition rk (k : nat) : nat := if Nat.eqb k 2 then 1 else k - 2.
Lemma size_split : forall k, 2 <= k -> size k = size (k - 1) + size (rk k).
Proof.
  intros k H. unfold rk. destruct (Nat.eqb_spec k 2) as [->|N]; [reflexivity|].
  destruct k as [|[|k]]; try lia. rewrite size_SS. replace (S (S k) - 1) with (S k) by lia. replace (S (S k) - 2) with k by lia. lia.
Qed.
Global Opaque size.

(** ** Specification: cells one after the other, without gap or overlap, from [a] to [z] *)
Fixpoint consecutive (H : nat -> hdr) (a : nat) (ls : list nat) (z : nat) : Prop :=
  match ls with
  | [] => a = z
  | x :: r => x = a /\ consecutive H (a + size (hbix (H x))) r z
  end.
Lemma consecutive_app : forall H l1 a l2 z, consecutive H a (l1 ++ l2) z <-> exists y, consecutive H a l1 y /\ consecutive H y l2 z.
Proof.
  intros H. induction l1 as [|x l1 IH]; intros a l2 z; cbn [consecutive app].
  - split; [intro K; exists a; auto|intros [y [<- K]]; exact K].
  - rewrite IH. split; [intros [E [y [K1 K2]]]; exists y; auto|intros [y [[E K1] K2]]; split; [exact E|exists y; auto]].
Qed.
Lemma consecutive_bounds : forall H ls a z x, consecutive H a ls z -> In x ls -> a <= x /\ x + size (hbix (H x)) <= z.
Proof.
  intros H. induction ls as [|y ls IH]; intros a z x K I; [destruct I|]. cbn in K. destruct K as [-> K].
  assert (Hz : a + size (hbix (H a)) <= z).
  { clear - K. revert K. generalize (a + size (hbix (H a))). induction ls as [|y ls IH]; intros b K; cbn in K; [lia|]. destruct K as [-> K]. apply IH in K. lia. }
  destruct I as [->|I]; [lia|]. apply (IH _ z x K) in I. lia.
Qed.
Lemma consecutive_le : forall H ls a z, consecutive H a ls z -> a <= z.
Proof. intros H. induction ls as [|y ls IH]; intros a z K; cbn in K; [lia|]. destruct K as [_ K]. apply IH in K. lia. Qed.
Lemma consecutive_NoDup : forall H ls a z, consecutive H a ls z -> NoDup ls.
Proof.
  intros H. induction ls as [|y ls IH]; intros a z K; [constructor|]. cbn in K. destruct K as [-> K]. constructor; [|eapply IH; exact K].
  intro I. apply (consecutive_bounds _ _ _ _ _ K) in I. pose proof (size_ge (hbix (H a))). lia.
Qed.

(** ** Cells of a chunk: the leaves of a tree of splits *)
Inductive tiles (H : nat -> hdr) : nat -> nat -> bool -> bool -> list nat -> Prop :=
| t_leaf a k b m : hbix (H a) = k -> hb (H a) = b -> hm (H a) = m -> tiles H a k b m [a]
| t_node a k b m l1 l2 : 2 <= k -> tiles H a (k - 1) false b l1 -> tiles H (a + size (k - 1)) (rk k) true m l2 -> tiles H a k b m (l1 ++ l2).

Lemma tiles_consecutive : forall H a k b m ls, tiles H a k b m ls -> consecutive H a ls (a + size k).
Proof.
  induction 1 as [a k b m E1 E2 E3|a k b m l1 l2 Hk T1 IH1 T2 IH2]; [cbn; rewrite E1; auto|].
  apply consecutive_app. exists (a + size (k - 1)). split; [exact IH1|]. rewrite (size_split k Hk). rewrite Nat.add_assoc. exact IH2.
Qed.
Lemma tiles_head : forall H a k b m ls, tiles H a k b m ls -> exists r, ls = a :: r.
Proof. induction 1 as [|a k b m l1 l2 Hk T1 [r ->] T2 IH2]; [exists []; reflexivity|]. exists (r ++ l2). reflexivity. Qed.
Lemma tiles_bix : forall H a k b m ls, tiles H a k b m ls -> forall x, In x ls -> hbix (H x) <= k /\ (1 <= k -> 1 <= hbix (H x)).
Proof.
  induction 1 as [a k b m E1 E2 E3|a k b m l1 l2 Hk T1 IH1 T2 IH2]; intros x I.
  - destruct I as [<-|[]]. lia.
  - apply in_app_or in I. destruct I as [I|I].
    + specialize (IH1 x I). lia.
    + specialize (IH2 x I). assert (1 <= rk k <= k). { unfold rk. destruct (Nat.eqb_spec k 2); lia. } lia.
Qed.
Lemma tiles_frame : forall H H' a k b m ls, tiles H a k b m ls ->
  (forall x, In x ls -> hbix (H' x) = hbix (H x) /\ hb (H' x) = hb (H x) /\ hm (H' x) = hm (H x)) -> tiles H' a k b m ls.
Proof.
  induction 1 as [a k b m E1 E2 E3|a k b m l1 l2 Hk T1 IH1 T2 IH2]; intro F.
  - destruct (F a) as [F1 [F2 F3]]; [left; reflexivity|]. constructor; congruence.
  - constructor; [exact Hk|apply IH1; intros x I; apply F, in_or_app; auto|apply IH2; intros x I; apply F, in_or_app; auto].
Qed.
(** a leftmost cell that is a right part, and a rightmost cell that is a left part, are whole trees *)
Lemma tiles_first : forall H a k b m ls, tiles H a k b m ls -> hb (H a) = true -> ls = [a] /\ b = true /\ hbix (H a) = k /\ hm (H a) = m.
Proof.
  induction 1 as [a k b m E1 E2 E3|a k b m l1 l2 Hk T1 IH1 T2 IH2]; intro B; [repeat split; congruence|].
  destruct (IH1 B) as [_ [X _]]. discriminate X.
Qed.
Lemma tiles_last : forall H a k b m ls, tiles H a k b m ls -> forall l x, ls = l ++ [x] -> hb (H x) = false -> l = [] /\ b = false /\ x = a /\ hbix (H a) = k /\ hm (H a) = m.
Proof.
  induction 1 as [a k b m E1 E2 E3|a k b m l1 l2 Hk T1 IH1 T2 IH2]; intros l x E B.
  - destruct l as [|y [|z l]]; try discriminate E. injection E as <-. repeat split; congruence.
  - exfalso. destruct (tiles_head _ _ _ _ _ _ T2) as [r Er].
    destruct (exists_last (l := l2)) as [l' [y Ey]]; [congruence|]. rewrite Ey, app_assoc in E. apply app_inj_tail in E. destruct E as [_ ->].
    destruct (IH2 l' x Ey B) as [_ [X _]]. discriminate X.
Qed.
Lemma app_split3 : forall {A} (l1 l2 pre post : list A) x, l1 ++ l2 = pre ++ x :: post ->
  (exists post1, l1 = pre ++ x :: post1 /\ post = post1 ++ l2) \/ (exists pre2, pre = l1 ++ pre2 /\ l2 = pre2 ++ x :: post).
Proof.
  intros A. induction l1 as [|y l1 IH]; intros l2 pre post x E.
  - right. exists pre. auto.
  - destruct pre as [|z pre]; cbn in E.
    + injection E as -> <-. left. exists l1. auto.
    + injection E as -> E. destruct (IH l2 pre post x E) as [[p1 [-> ->]]|[p2 [-> ->]]]; [left; exists p1; auto|right; exists p2; auto].
Qed.
(** merging a left cell with the right cell that follows it *)
Lemma tiles_merge : forall H a k b m ls, tiles H a k b m ls -> forall pre p np post, ls = pre ++ p :: np :: post -> hb (H p) = false -> hb (H np) = true ->
  forall H', hbix (H' p) = hbix (H p) + 1 -> hb (H' p) = hm (H p) -> hm (H' p) = hm (H np) ->
  (forall x, x <> p -> H' x = H x) -> tiles H' a k b m (pre ++ p :: post).
Proof.
  induction 1 as [a k b m E1 E2 E3|a k b m l1 l2 Hk T1 IH1 T2 IH2]; intros pre p np post E B1 B2 H' X1 X2 X3 F.
  { destruct pre as [|y [|z pre]]; discriminate E. }
  assert (ND : NoDup (l1 ++ l2)) by (eapply consecutive_NoDup, tiles_consecutive; constructor; eassumption).
  destruct (app_split3 _ _ _ _ _ E) as [[post1 [-> Ep]]|[pre2 [-> ->]]].
  - destruct post1 as [|q post1].
    + (* p ends the left part *)
      destruct (tiles_last _ _ _ _ _ _ T1 pre p eq_refl B1) as [-> [_ [-> [K1 K2]]]]. cbn in Ep. destruct (tiles_head _ _ _ _ _ _ T2) as [r ->].
      injection Ep as -> ->. destruct (tiles_first _ _ _ _ _ _ T2 B2) as [Er [_ [K3 K4]]]. injection Er as ->. cbn [app].
      constructor; [rewrite X1, K1; lia|congruence|congruence].
    + cbn in Ep. injection Ep as -> ->. rewrite app_comm_cons, app_assoc. constructor; [exact Hk| |].
      * eapply IH1; eauto.
      * eapply tiles_frame; [exact T2|]. intros x I. rewrite F; [auto|]. intros ->. clear - ND I. rewrite <- app_assoc in ND. apply NoDup_remove_2 in ND.
        apply ND. apply in_or_app. right. cbn. right. apply in_or_app. right. exact I.
  - rewrite <- app_assoc. constructor; [exact Hk| |].
    + eapply tiles_frame; [exact T1|]. intros x I. rewrite F; [auto|]. intros ->. clear - ND I. rewrite app_assoc in ND. apply NoDup_remove_2 in ND.
      apply ND. apply in_or_app. left. apply in_or_app. left. exact I.
    + eapply IH2; eauto.
Qed.
(** splitting a cell *)
Lemma tiles_split : forall H a k b m ls, tiles H a k b m ls -> forall pre p post, ls = pre ++ p :: post -> 2 <= hbix (H p) ->
  forall H', let q := p + size (hbix (H p) - 1) in
  hbix (H' p) = hbix (H p) - 1 -> hb (H' p) = false -> hm (H' p) = hb (H p) -> hbix (H' q) = rk (hbix (H p)) -> hb (H' q) = true -> hm (H' q) = hm (H p) ->
  (forall x, x <> p -> x <> q -> H' x = H x) -> tiles H' a k b m (pre ++ p :: q :: post).
Proof.
  induction 1 as [a k b m E1 E2 E3|a k b m l1 l2 Hk T1 IH1 T2 IH2]; intros pre p post E J H' q X1 X2 X3 Y1 Y2 Y3 F.
  - destruct pre as [|y [|z pre]]; try discriminate E. injection E as <- <-. cbn [app]. change [a; q] with ([a] ++ [q]). apply t_node.
    + congruence.
    + constructor; congruence.
    + replace (a + size (k - 1)) with q by (unfold q; congruence). constructor; congruence.
  - assert (C1 := tiles_consecutive _ _ _ _ _ _ T1). assert (C2 := tiles_consecutive _ _ _ _ _ _ T2).
    pose proof (size_ge (hbix (H p) - 1)) as Sg. pose proof (size_split (hbix (H p)) J) as Ss. pose proof (size_ge (rk (hbix (H p)))) as Sr.
    destruct (app_split3 _ _ _ _ _ E) as [[post1 [-> ->]]|[pre2 [-> ->]]].
    + rewrite !app_comm_cons, app_assoc. constructor; [exact Hk|eapply IH1; eauto|].
      assert (Bp := consecutive_bounds _ _ _ _ p C1 ltac:(apply in_elt)).
      eapply tiles_frame; [exact T2|]. intros x I. apply (consecutive_bounds _ _ _ _ _ C2) in I. rewrite F; [auto| |]; unfold q; lia.
    + rewrite <- app_assoc. constructor; [exact Hk| |eapply IH2; eauto].
      assert (Bp := consecutive_bounds _ _ _ _ p C2 ltac:(apply in_elt)).
      eapply tiles_frame; [exact T1|]. intros x I. apply (consecutive_bounds _ _ _ _ _ C1) in I. pose proof (size_ge (hbix (H x))). rewrite F; [auto| |]; unfold q; lia.
Qed.

(** ** Merging: memory.c mergecell *)
Definition same_lists (s s' : state) : Prop := tbuddy s' = tbuddy s /\ tcnt s' = tcnt s /\ chunks s' = chunks s /\ totalheap s' = totalheap s.
(** from s to s' exactly the cells of [mid] have been put on the free lists of their index *)
Definition freed (s s' : state) (mid : list nat) : Prop := exists new : nat -> list nat,
  (forall i, buddy s' i = new i ++ buddy s i /\ cnt s' i = (cnt s i + Z.of_nat (length (new i)))%Z /\ NoDup (new i)) /\
  (forall i x, In x (new i) <-> In x mid /\ hbix (head s' x) = i) /\
  freeheap s' = (freeheap s + Z.of_nat (list_sum (map (fun x => size (hbix (head s' x))) mid)))%Z.
Lemma freed_refl : forall s s', buddy s' = buddy s -> cnt s' = cnt s -> freeheap s' = freeheap s -> freed s s' [].
Proof. intros s s' E1 E2 E3. exists (fun _ => []). split; [intro i; rewrite E1, E2; cbn; repeat split; auto; [lia|constructor]|]. split; [intros i x; cbn; tauto|]. rewrite E3. cbn. lia. Qed.
Lemma freed_trans : forall s1 s2 s3 m1 m2, freed s1 s2 m1 -> freed s2 s3 m2 -> (forall x, In x m1 -> ~ In x m2) ->
  (forall x, In x m1 -> hbix (head s3 x) = hbix (head s2 x)) -> freed s1 s3 (m1 ++ m2).
Proof.
  intros s1 s2 s3 m1 m2 [n1 [A1 [B1 C1]]] [n2 [A2 [B2 C2]]] D E. exists (fun i => n2 i ++ n1 i). split; [|split].
  - intro i. destruct (A1 i) as [P1 [P2 P3]]. destruct (A2 i) as [Q1 [Q2 Q3]]. split; [rewrite Q1, P1, app_assoc; reflexivity|].
    split; [rewrite Q2, P2, app_length; lia|]. clear - B1 B2 D P3 Q3. revert Q3. assert (K : forall x, In x (n2 i) -> ~ In x (n1 i)).
    { intros x I1 I2. apply B1 in I2. apply B2 in I1. apply (D x); tauto. }
    revert K. generalize (n2 i). induction l as [|x l IH]; intros K N; [exact P3|]. inversion N; subst. cbn. constructor; [|apply IH; auto; intros y Hy; apply K; right; exact Hy].
    intro I. apply in_app_or in I. destruct I as [I|I]; [contradiction|]. apply (K x); [left; reflexivity|exact I].
  - intros i x. rewrite !in_app_iff, B1, B2. split; [intros [[I J]|[I J]]; auto|intros [[I|I] J]; auto].
    + split; [auto|]. rewrite E by exact I. exact J.
    + right. split; [exact I|]. rewrite <- E by exact I. exact J.
  - rewrite C2, C1, map_app, list_sum_app. rewrite (map_ext_in (fun x => size (hbix (head s3 x))) (fun x => size (hbix (head s2 x))) m1); [lia|].
    intros x I. rewrite E by exact I. reflexivity.
Qed.
Lemma freed_perm : forall s s' m m', (forall x, In x m <-> In x m') -> list_sum (map (fun x => size (hbix (head s' x))) m) = list_sum (map (fun x => size (hbix (head s' x))) m') -> freed s s' m -> freed s s' m'.
Proof. intros s s' m m' P Q [n [A [B C]]]. exists n. split; [exact A|]. split; [intros i x; rewrite B, P; tauto|]. rewrite <- Q. exact C. Qed.
Lemma freed_head_ext : forall s s' t' mid, freed s s' mid -> buddy t' = buddy s' -> cnt t' = cnt s' -> freeheap t' = freeheap s' -> (forall x, In x mid -> hbix (head t' x) = hbix (head s' x)) -> freed s t' mid.
Proof.
  intros s s' t' mid [n [A [B C]]] E1 E2 E3 E4. exists n. split; [intro i; rewrite E1, E2; apply A|]. split.
  - intros i x. rewrite B. split; intros [I J]; (split; [exact I|]); [rewrite E4 by exact I; exact J|rewrite <- E4 by exact I; exact J].
  - rewrite E3, C. do 3 f_equal. apply map_ext_in. intros x I. rewrite E4 by exact I. reflexivity.
Qed.
Lemma reclaim_freed : forall s p, freed s (reclaim s p) [p].
Proof.
  intros s p. set (k := hbix (head s p)). exists (fun i => if Nat.eqb i k then [p] else []). split; [|split].
  - intro i. unfold reclaim. fold k. cbn [add_free set_buddy buddy cnt]. unfold upd. destruct (Nat.eqb_spec i k) as [->|N]; cbn; repeat split; auto; try lia; repeat constructor; auto.
  - intros i x. cbn [reclaim add_free set_buddy head]. destruct (Nat.eqb_spec i k) as [->|N]; cbn.
    + split; [intros [<-|[]]; auto|tauto].
    + split; [tauto|]. intros [[<-|[]] E]. apply N. symmetry. exact E.
  - cbn. fold k. lia.
Qed.

Definition unused (h : hdr) : Prop := hmark h = false /\ hnod h = false.
(** the outcome of merging from p on: [gone] are the cells examined, [mid] those put on free lists *)
Record merged (c k : nat) (pre rest : list nat) (p : nat) (s s' : state) (np' : nat) (gone mid rest' : list nat) : Prop := {
  mg_rest : rest = gone ++ rest';
  mg_tiles : tiles (head s') c k true false (pre ++ p :: mid ++ rest');
  mg_np : consecutive (head s') np' rest' (c + size k);
  mg_incl : incl mid gone;
  mg_unused : forall x, In x gone -> unused (head s x);
  mg_frame : forall x, x <> p -> ~ In x gone -> head s' x = head s x;
  mg_p : hmark (head s' p) = hmark (head s p) /\ hnod (head s' p) = hnod (head s p);
  mg_mid : forall x, In x mid -> unused (head s' x);
  mg_b : mid = [] \/ hb (head s' p) = false;
  mg_freed : freed s s' mid;
  mg_mem : forall y, y <> p -> (forall x, In x gone -> y <> x /\ y <> x + 1) -> mem s' y = mem s y;
  mg_lists : same_lists s s' }.

Lemma consecutive_next : forall H c z pre p rest, consecutive H c (pre ++ p :: rest) z -> consecutive H (p + size (hbix (H p))) rest z.
Proof. intros H c z pre p rest K. apply consecutive_app in K. destruct K as [y [K1 K2]]. cbn in K2. destruct K2 as [-> K2]. exact K2. Qed.
Lemma set_head_same : forall s a h, head (set_head s a h) a = h.
Proof. intros. cbn. unfold upd. rewrite Nat.eqb_refl. reflexivity. Qed.
Lemma set_head_other : forall s a h x, x <> a -> head (set_head s a h) x = head s x.
Proof. intros s a h x N. cbn. unfold upd. apply Nat.eqb_neq in N. rewrite N. reflexivity. Qed.

Lemma merge_loop_ok : forall f s c k pre p rest, tiles (head s) c k true false (pre ++ p :: rest) -> length rest < f ->
  exists s' np' gone mid rest', merge_loop f s p (nextbuddy s p) k = Ret (s', np') /\ merged c k pre rest p s s' np' gone mid rest'.
Proof.
  induction f as [|f IH]; intros s c k pre p rest T Hf; [lia|].
  assert (C := tiles_consecutive _ _ _ _ _ _ T). assert (Cn := consecutive_next _ _ _ _ _ _ C). fold (nextbuddy s p) in Cn.
  assert (Stop : exists gone mid rest', merged c k pre rest p s s (nextbuddy s p) gone mid rest').
  { exists [], [], rest. constructor; auto; try (intros x []). - apply freed_refl; reflexivity. - repeat split. }
  cbn [merge_loop]. destruct (hb (head s p)) eqn:Bp; cbn [negb andb].
  { destruct Stop as [g [m [r K]]]. eauto 10. }
  destruct (Nat.ltb_spec (hbix (head s p)) k) as [Lk|Lk].
  2:{ destruct Stop as [g [m [r K]]]. eauto 10. }
  destruct rest as [|np rest1].
  { (* the last cell of a chunk is a right part *)
    exfalso. destruct (tiles_last _ _ _ _ _ _ T pre p eq_refl Bp) as [_ [X _]]. discriminate X. }
  assert (Enp : nextbuddy s p = np) by (cbn in Cn; destruct Cn; congruence). rewrite Enp in *.
  destruct (hmark (head s np)) eqn:Mk. { destruct Stop as [g [m [r K]]]. eauto 10. }
  destruct (hnod (head s np)) eqn:Nd. { destruct Stop as [g [m [r K]]]. eauto 10. }
  clear Stop. cbn [length] in Hf.
  assert (T' : tiles (head s) c k true false ((pre ++ [p]) ++ np :: rest1)) by (rewrite <- app_assoc; exact T).
  destruct (IH s c k (pre ++ [p]) np rest1 T' ltac:(lia)) as [s1 [p2 [gone1 [mid1 [rest' [E1 M1]]]]]]. rewrite E1. cbn [bind].
  destruct M1 as [R1 Ti1 Np1 In1 Un1 Fr1 P1 Mi1 B1 Fd1 Mm1 Ls1]. subst rest1.
  assert (ND : NoDup (pre ++ p :: np :: gone1 ++ rest')) by (eapply consecutive_NoDup; exact C).
  assert (Npnp : p <> np). { intros ->. apply NoDup_remove_2 in ND. apply ND. apply in_or_app. right. left. reflexivity. }
  assert (Npg : ~ In p gone1). { intro I. apply NoDup_remove_2 in ND. apply ND. apply in_or_app. right. right. apply in_or_app. left. exact I. }
  assert (Nnpg : ~ In np gone1). { intro I. change (pre ++ p :: np :: gone1 ++ rest') with (pre ++ [p] ++ np :: gone1 ++ rest') in ND. rewrite app_assoc in ND. apply NoDup_remove_2 in ND. apply ND. apply in_or_app. right. apply in_or_app. left. exact I. }
  assert (Hp1 : head s1 p = head s p) by (apply Fr1; auto).
  destruct (hb (head s1 np)) eqn:Bnp.
  - assert (mid1 = []) by (destruct B1 as [|X]; [assumption|congruence]). subst mid1. cbn [app] in Ti1. rewrite <- app_assoc in Ti1. cbn [app] in Ti1.
    set (h' := mkHdr (hmark (head s1 p)) (hm (head s1 p)) (hm (head s1 np)) (hbix (head s1 p) + 1) (hnod (head s1 p))).
    set (s2 := set_head s1 p h').
    assert (T2 : tiles (head s2) c k true false (pre ++ p :: rest')).
    { eapply (tiles_merge (head s1) c k true false _ Ti1 pre p np rest' eq_refl); [rewrite Hp1; exact Bp|exact Bnp| | | |]; unfold s2; try (rewrite set_head_same; reflexivity).
      intros x N. apply set_head_other. exact N. }
    assert (En2 : nextbuddy s2 p = p2).
    { assert (C2 := tiles_consecutive _ _ _ _ _ _ T2). assert (Cn2 := consecutive_next _ _ _ _ _ _ C2). fold (nextbuddy s2 p) in Cn2.
      destruct rest' as [|x rest']; cbn in Cn2, Np1; [congruence|]. destruct Cn2, Np1; congruence. }
    destruct (IH s2 c k pre p rest' T2) as [s3 [np3 [gone2 [mid2 [rest2 [E3 M3]]]]]]; [rewrite app_length in Hf; lia|].
    rewrite En2 in E3. destruct M3 as [R3 Ti3 Np3 In3 Un3 Fr3 P3 Mi3 B3 Fd3 Mm3 Ls3]. subst rest'.
    assert (F2 : forall x, x <> p -> head s2 x = head s1 x) by (intros x N; apply set_head_other; exact N).
    assert (G2 : forall x, In x gone2 -> x <> p /\ x <> np /\ ~ In x gone1).
    { intros x I. clear - ND I. repeat split; intro; subst.
      - apply NoDup_remove_2 in ND. apply ND. apply in_or_app. right. right. apply in_or_app. right. apply in_or_app. left. exact I.
      - change (pre ++ p :: np :: gone1 ++ gone2 ++ rest2) with (pre ++ [p] ++ np :: gone1 ++ gone2 ++ rest2) in ND. rewrite app_assoc in ND. apply NoDup_remove_2 in ND. apply ND. apply in_or_app. right. apply in_or_app. right. apply in_or_app. left. exact I.
      - apply NoDup_app_parts in ND as [_ [ND _]]. inversion ND as [|? ? _ ND1]. inversion ND1 as [|? ? _ ND2]. apply NoDup_app_parts in ND2 as [_ [_ ND2]].
        apply (ND2 x); [assumption|]. apply in_or_app. left. exact I. }
    exists s3, np3, (np :: gone1 ++ gone2), mid2, rest2. split; [exact E3|]. constructor; auto.
    + cbn [app]. rewrite <- app_assoc. reflexivity.
    + intros x I. right. apply in_or_app. right. apply In3. exact I.
    + intros x [<-|I]; [split; assumption|]. apply in_app_or in I. destruct I as [I|I]; [auto|]. specialize (Un3 x I). destruct (G2 x I) as [N1 [N2 N3]].
      rewrite F2, Fr1 in Un3 by auto. exact Un3.
    + intros x N I. rewrite Fr3, F2, Fr1; auto; intro J; subst; apply I; cbn; auto; right; apply in_or_app; auto.
    + destruct P3 as [Q1 Q2]. rewrite Q1, Q2. unfold s2. rewrite set_head_same. cbn. rewrite Hp1. auto.
    + destruct Fd1 as [n [A [B Cc]]]. apply (freed_trans s s1 s3 [] mid2); [exists n; auto| |intros x []|intros x []]. exact Fd3.
    + intros y Ny Gy. rewrite Mm3; [|exact Ny|intros x I; apply Gy; right; apply in_or_app; auto]. unfold s2. cbn [set_head mem]. unfold upd.
      destruct (Nat.eqb_spec y p) as [->|_]; [contradiction|]. apply Mm1; [apply (Gy np); left; reflexivity|]. intros x I. apply Gy. right. apply in_or_app. auto.
    + destruct Ls1 as [? [? [? ?]]]. destruct Ls3 as [? [? [? ?]]]. cbn in *. repeat split; congruence.
  - exists (reclaim s1 np), p2, (np :: gone1), (np :: mid1), rest'. split; [reflexivity|]. rewrite <- app_assoc in Ti1. constructor; auto.
    + intros x [<-|I]; [left; reflexivity|right; apply In1; exact I].
    + intros x [<-|I]; [split; assumption|]. auto.
    + intros x N I. cbn. apply Fr1; intro; subst; apply I; cbn; auto.
    + cbn. rewrite Hp1. auto.
    + intros x [<-|I]; [|apply Mi1; exact I]. cbn. destruct P1 as [Q1 Q2]. split; congruence.
    + right. cbn. congruence.
    + eapply (freed_perm s _ (mid1 ++ [np])).
      * intro x. cbn. rewrite in_app_iff. cbn. tauto.
      * rewrite map_app, list_sum_app. cbn [map list_sum fold_right]. unfold list_sum. lia.
      * eapply freed_trans; [exact Fd1|apply reclaim_freed| |].
        -- intros x I [<-|[]]. apply Nnpg. apply In1. exact I.
        -- reflexivity.
    + intros y Ny Gy. cbn. unfold upd. destruct (Nat.eqb_spec y (np + 1)) as [E|_]; [exfalso; apply (Gy np); [left; reflexivity|exact E]|].
      apply Mm1; [apply (Gy np); left; reflexivity|]. intros x I. apply Gy. right. exact I.
Qed.

(** ** Sweeping one chunk *)
Definition kept (h : hdr) : bool := hmark h || hnod h.
Definition unmark (h : hdr) : hdr := mkHdr false (hb h) (hm h) (hbix h) (hnod h).
Lemma kept_unused : forall h, kept h = false <-> unused h.
Proof. intro h. unfold kept, unused. rewrite orb_false_iff. tauto. Qed.
Record swept (ls : list nat) (s s' : state) (ls' fr d : list nat) : Prop := {
  sw_fr_in : incl fr ls';
  sw_all : forall x, In x ls' -> In x ls /\ (In x fr \/ kept (head s x) = true);
  sw_kept : forall x, In x ls -> kept (head s x) = true -> In x ls' /\ ~ In x fr /\ head s' x = unmark (head s x);
  sw_mark : forall x, In x ls' -> hmark (head s' x) = false;
  sw_fr : forall x, In x fr -> kept (head s x) = false /\ hnod (head s' x) = false;
  sw_frame : forall x, ~ In x ls -> head s' x = head s x;
  sw_freed : freed s s' fr;
  sw_mem : forall y, (forall x, In x ls -> y <> x) -> (forall x, In x ls -> kept (head s x) = false -> y <> x + 1) -> mem s' y = mem s y;
  sw_lists : same_lists s s';
  sw_disp : forall x, In x d -> In x ls /\ hnod (head s x) = true }.

(** one more cell p in front, kept: s1 differs from s in the mark of p only *)
Lemma swept_keep : forall p ls s s1 s' ls' fr d d', ~ In p ls -> kept (head s p) = true -> head s1 p = unmark (head s p) -> (forall x, x <> p -> head s1 x = head s x) ->
  buddy s1 = buddy s -> cnt s1 = cnt s -> freeheap s1 = freeheap s -> same_lists s s1 -> (forall y, y <> p -> mem s1 y = mem s y) ->
  (forall x, In x d' -> In x d \/ (x = p /\ hnod (head s p) = true)) -> ~ In p ls' ->
  swept ls s1 s' ls' fr d -> swept (p :: ls) s s' (p :: ls') fr d'.
Proof.
  intros p ls s s1 s' ls' fr d d' Np Kp Hp Hx E1 E2 E3 E4 Em Ed Np' [A1 A2 A3 A4 A5 A6 A7 A8 A9 A10].
  assert (Hpp : head s' p = unmark (head s p)) by (rewrite A6 by exact Np; exact Hp).
  assert (Hne : forall x, In x ls -> x <> p) by (intros x I ->; contradiction).
  constructor.
  - intros x I. right. apply A1. exact I.
  - intros x [<-|I]; [split; [left; reflexivity|right; exact Kp]|]. destruct (A2 x I) as [I1 I2]. split; [right; exact I1|]. rewrite Hx in I2 by auto. exact I2.
  - intros x [<-|I] K; [split; [left; reflexivity|split; [intro J; apply Np'; apply A1; exact J|exact Hpp]]|].
    rewrite <- Hx in K by auto. destruct (A3 x I K) as [I1 [I2 I3]]. split; [right; exact I1|]. split; [exact I2|]. rewrite I3, Hx by auto. reflexivity.
  - intros x [<-|I]; [rewrite Hpp; reflexivity|apply A4; exact I].
  - intros x I. destruct (A5 x I) as [K1 K2]. rewrite Hx in K1; [auto|]. apply Hne. apply A2. apply A1. exact I.
  - intros x I. rewrite A6 by (intro J; apply I; right; exact J). apply Hx. intros ->. apply I. left. reflexivity.
  - change fr with ([] ++ fr). eapply freed_trans; [apply freed_refl; eassumption|exact A7|intros x []|intros x []].
  - intros y Y1 Y2. rewrite A8.
    + apply Em. apply Y1. left. reflexivity.
    + intros x I. apply Y1. right. exact I.
    + intros x I K. apply Y2; [right; exact I|]. rewrite <- Hx by auto. exact K.
  - destruct E4 as [? [? [? ?]]]. destruct A9 as [? [? [? ?]]]. repeat split; congruence.
  - intros x I. destruct (Ed x I) as [J|[-> J]]; [|split; [left; reflexivity|exact J]]. destruct (A10 x J) as [J1 J2]. split; [right; exact J1|]. rewrite Hx in J2 by auto. exact J2.
Qed.
(** one more cell p in front, freed after merging: [gone] are the cells examined, [mid] those that remain and are freed too *)
Lemma swept_free : forall p gone mid rest s s1 s' rest2 fr d, NoDup (p :: gone ++ rest) -> unused (head s p) -> incl mid gone ->
  (forall x, In x gone -> unused (head s x)) -> (forall x, x <> p -> ~ In x gone -> head s1 x = head s x) ->
  unused (head s1 p) -> (forall x, In x mid -> unused (head s1 x)) -> freed s s1 (p :: mid) -> same_lists s s1 ->
  (forall y, y <> p -> y <> p + 1 -> (forall x, In x gone -> y <> x /\ y <> x + 1) -> mem s1 y = mem s y) ->
  swept rest s1 s' rest2 fr d -> swept (p :: gone ++ rest) s s' (p :: mid ++ rest2) (p :: mid ++ fr) d.
Proof.
  intros p gone mid rest s s1 s' rest2 fr d ND Up Im Ug Hx Up1 Um Fd Ls Em [A1 A2 A3 A4 A5 A6 A7 A8 A9 A10].
  inversion ND as [|? ? N1 N2]; subst. apply NoDup_app_parts in N2 as [N3 [N4 N5]].
  assert (Np : ~ In p rest) by (intro I; apply N1, in_or_app; auto).
  assert (Ng : forall x, In x gone -> ~ In x rest) by exact N5.
  assert (Hr : forall x, In x rest -> x <> p /\ ~ In x gone) by (intros x I; split; [intros ->; contradiction|intro J; apply (N5 x J I)]).
  constructor.
  - intros x [<-|I]; [left; reflexivity|]. right. apply in_app_or in I. apply in_or_app. destruct I as [I|I]; [auto|right; apply A1; exact I].
  - intros x [<-|I]; [split; [left; reflexivity|left; left; reflexivity]|]. apply in_app_or in I. destruct I as [I|I].
    + split; [right; apply in_or_app; left; apply Im; exact I|left; right; apply in_or_app; auto].
    + destruct (A2 x I) as [I1 I2]. destruct (Hr x I1). split; [right; apply in_or_app; auto|]. destruct I2 as [I2|I2]; [left; right; apply in_or_app; auto|]. rewrite Hx in I2 by auto. auto.
  - intros x [<-|I] K; [apply kept_unused in Up; congruence|]. apply in_app_or in I. destruct I as [I|I]; [apply Ug, kept_unused in I; congruence|].
    destruct (Hr x I) as [R1 R2]. rewrite <- Hx in K by auto. destruct (A3 x I K) as [I1 [I2 I3]]. split; [right; apply in_or_app; auto|]. split; [|rewrite I3, Hx by auto; reflexivity].
    intros [E|J]; [subst; contradiction|]. apply in_app_or in J. destruct J as [J|J]; [apply R2, Im; exact J|contradiction].
  - intros x [<-|I]; [rewrite A6 by exact Np; apply Up1|]. apply in_app_or in I. destruct I as [I|I]; [|apply A4; exact I]. rewrite A6 by (apply Ng, Im; exact I). apply Um. exact I.
  - intros x [<-|I]; [split; [apply kept_unused; exact Up|rewrite A6 by exact Np; apply Up1]|]. apply in_app_or in I. destruct I as [I|I].
    + split; [apply kept_unused, Ug, Im; exact I|]. rewrite A6 by (apply Ng, Im; exact I). apply Um. exact I.
    + destruct (A5 x I) as [K1 K2]. split; [|exact K2]. destruct (A2 x (A1 x I)) as [J _]. destruct (Hr x J). rewrite Hx in K1 by auto. exact K1.
  - intros x I. rewrite A6 by (intro J; apply I; right; apply in_or_app; auto). apply Hx; [intros ->; apply I; left; reflexivity|]. intro J. apply I. right. apply in_or_app. auto.
  - change (p :: mid ++ fr) with ((p :: mid) ++ fr). assert (Q : forall x, In x (p :: mid) -> ~ In x rest) by (intros x [<-|I]; [exact Np|apply Ng, Im; exact I]).
    eapply freed_trans; [exact Fd|exact A7| |].
    + intros x I J. apply (Q x I). apply A2. apply A1. exact J.
    + intros x I. rewrite A6; [reflexivity|apply Q; exact I].
  - intros y Y1 Y2. rewrite A8.
    + apply Em; [apply Y1; left; reflexivity|apply Y2; [left; reflexivity|apply kept_unused; exact Up]|]. intros x I. split; [apply Y1; right; apply in_or_app; auto|].
      apply Y2; [right; apply in_or_app; auto|apply kept_unused, Ug; exact I].
    + intros x I. apply Y1. right. apply in_or_app. auto.
    + intros x I K. destruct (Hr x I). apply Y2; [right; apply in_or_app; auto|]. rewrite <- Hx by auto. exact K.
  - destruct Ls as [? [? [? ?]]]. destruct A9 as [? [? [? ?]]]. repeat split; congruence.
  - intros x I. destruct (A10 x I) as [J1 J2]. destruct (Hr x J1). split; [right; apply in_or_app; auto|]. rewrite Hx in J2 by auto. exact J2.
Qed.

Lemma sweep_loop_ok : forall f s c k done todo p g disp, tiles (head s) c k true false (done ++ todo) -> consecutive (head s) p todo (c + size k) -> length todo < f ->
  exists s' disp' d todo' fr, sweep_loop f s p (c + size k) k g disp = Ret (s', disp') /\ incl disp' (disp ++ d) /\ tiles (head s') c k true false (done ++ todo') /\ swept todo s s' todo' fr d.
Proof.
  induction f as [|f IH]; intros s c k done todo p g disp T Cp Hf; [lia|].
  cbn [sweep_loop]. destruct todo as [|q rest].
  { cbn in Cp. subst p. rewrite Nat.ltb_irrefl. exists s, disp, [], [], []. split; [reflexivity|]. split; [apply incl_appl, incl_refl|]. split; [exact T|].
    constructor; auto; try (intros x []). apply freed_refl; reflexivity. repeat split. }
  cbn in Cp. destruct Cp as [-> Cp]. fold (nextbuddy s p) in Cp. cbn [length] in Hf.
  assert (Hlt : p < c + size k). { apply consecutive_le in Cp. unfold nextbuddy in Cp. pose proof (size_ge (hbix (head s p))). lia. }
  apply Nat.ltb_lt in Hlt. rewrite Hlt. clear Hlt.
  assert (ND : NoDup (done ++ p :: rest)) by (eapply consecutive_NoDup, tiles_consecutive; exact T).
  assert (ND' : NoDup (p :: rest)) by (apply NoDup_app_parts in ND; tauto).
  assert (Np : ~ In p rest) by (inversion ND'; assumption).
  assert (Tp : forall l, done ++ p :: l = (done ++ [p]) ++ l) by (intro l; rewrite <- app_assoc; reflexivity).
  destruct (hmark (head s p)) eqn:Mk.
  - set (s1 := set_head s p (mkHdr false (hb (head s p)) (hm (head s p)) (hbix (head s p)) (hnod (head s p)))).
    assert (F1 : forall x, x <> p -> head s1 x = head s x) by (intros x N; apply set_head_other; exact N).
    assert (F2 : head s1 p = unmark (head s p)) by apply set_head_same.
    assert (F : forall x, hbix (head s1 x) = hbix (head s x) /\ hb (head s1 x) = hb (head s x) /\ hm (head s1 x) = hm (head s x)).
    { intro x. destruct (Nat.eq_dec x p) as [->|N]; [rewrite F2; auto|rewrite F1; auto]. }
    destruct (IH s1 c k (done ++ [p]) rest (nextbuddy s p) g disp) as [s' [disp' [d [todo' [fr [E [Id [T' Sw]]]]]]]]; [| |lia|].
    + rewrite <- Tp. eapply tiles_frame; [exact T|]. intros x _. apply F.
    + clear - Cp F. revert Cp. generalize (nextbuddy s p). induction rest as [|x rest IHr]; intros a K; [exact K|]. cbn in *. destruct K as [-> K]. split; [reflexivity|]. destruct (F a) as [-> _]. apply IHr. exact K.
    + exists s', disp', d, (p :: todo'), fr. split; [exact E|]. split; [exact Id|]. split; [rewrite Tp; exact T'|].
      assert (Np' : ~ In p todo'). { intro I. apply Np. apply (sw_all _ _ _ _ _ _ Sw p I). }
      apply (swept_keep p rest s s1 s' todo' fr d d); auto; try reflexivity.
      * unfold kept. rewrite Mk. reflexivity.
      * repeat split.
      * intros y Ny. cbn. unfold upd. apply Nat.eqb_neq in Ny. rewrite Ny. reflexivity.
  - destruct (hnod (head s p)) eqn:Nd.
    + set (disp1 := if 256 <=? length disp then disp else disp ++ [p]).
      destruct (IH s c k (done ++ [p]) rest (nextbuddy s p) g disp1) as [s' [disp' [d [todo' [fr [E [Id [T' Sw]]]]]]]]; [rewrite <- Tp; exact T|exact Cp|lia|].
      exists s', disp', (p :: d), (p :: todo'), fr. split; [exact E|]. split.
      { intros x I. apply Id in I. unfold disp1 in I. rewrite in_app_iff in *. cbn [In]. destruct (256 <=? length disp); [tauto|]. rewrite in_app_iff in I. cbn in I. tauto. }
      split; [rewrite Tp; exact T'|].
      assert (Np' : ~ In p todo'). { intro I. apply Np. apply (sw_all _ _ _ _ _ _ Sw p I). }
      apply (swept_keep p rest s s s' todo' fr d (p :: d)); auto; try reflexivity.
      * unfold kept. rewrite Nd. apply orb_true_r.
      * unfold unmark. destruct (head s p) as [a0 a1 a2 a3 a4]; cbn in *. congruence.
      * repeat split.
      * intros x [<-|I]; auto.
    + assert (Up : unused (head s p)) by (split; assumption).
      destruct (freeheap s <? g)%Z.
      * destruct (IH (reclaim s p) c k (done ++ [p]) rest (nextbuddy s p) g disp) as [s' [disp' [d [todo' [fr [E [Id [T' Sw]]]]]]]]; [rewrite <- Tp; exact T|exact Cp|lia|].
        exists s', disp', d, (p :: todo'), (p :: fr). split; [exact E|]. split; [exact Id|]. split; [rewrite Tp; exact T'|].
        apply (swept_free p [] [] rest s (reclaim s p) s' todo' fr d); auto; try (intros x I; exact (match I : False with end)); try apply incl_refl.
        -- apply reclaim_freed.
        -- repeat split.
        -- intros y Y1 Y2 _. cbn. unfold upd. apply Nat.eqb_neq in Y2. rewrite Y2. reflexivity.
      * unfold mergecell. destruct (merge_loop_ok f s c k done p rest T ltac:(lia)) as [s1 [np [gone [mid [rest' [E1 M]]]]]]. rewrite E1. cbn [bind].
        destruct M as [R Ti Npc Im Un Fr P Mi B Fd Mm Ls]. subst rest.
        assert (Tq : forall l, done ++ p :: mid ++ l = (done ++ p :: mid) ++ l) by (intro l; rewrite <- app_assoc; reflexivity).
        destruct (IH (reclaim s1 p) c k (done ++ p :: mid) rest' np g disp) as [s' [disp' [d [todo' [fr [E [Id [T' Sw]]]]]]]]; [rewrite <- Tq; exact Ti|exact Npc|rewrite app_length in Hf; lia|].
        exists s', disp', d, (p :: mid ++ todo'), (p :: mid ++ fr). split; [exact E|]. split; [exact Id|]. split; [rewrite Tq; exact T'|].
        apply (swept_free p gone mid rest' s (reclaim s1 p) s' todo' fr d); auto.
        -- destruct P as [P1 P2]. destruct Up. split; cbn; congruence.
        -- eapply (freed_perm s _ (mid ++ [p])).
           ++ intro x. cbn. rewrite in_app_iff. cbn. tauto.
           ++ rewrite map_app, list_sum_app. cbn [map list_sum fold_right]. unfold list_sum. lia.
           ++ eapply freed_trans; [exact Fd|apply reclaim_freed| |reflexivity]. intros x I [<-|[]]. apply Np. apply in_or_app. left. apply Im. exact I.
        -- intros y Y1 Y2 Y3. cbn. unfold upd. apply Nat.eqb_neq in Y2. rewrite Y2. apply Mm; assumption.
Qed.
