(** A cell of index 39 comes to be twice on its free list. *)
From Verif Require Export HeapProofs6.

Definition top_of (cs : list (nat * nat)) : nat := fold_right (fun ck m => Nat.max (fst ck + size (snd ck)) m) 1 cs.
(** malloc at the end of all chunks; no margin; cells are not merged; nothing is live *)
Definition envK (K : nat) : env := mkEnv (fun s _ => top_of (chunks s)) (fun _ => false) (fun _ => Z.of_nat (size K)) (fun _ => false) 1 10.
Lemma top_of_ge : forall cs ck, In ck cs -> fst ck + size (snd ck) <= top_of cs.
Proof. induction cs as [|c cs IH]; intros ck I; [destruct I|]. cbn. destruct I as [<-|I]; [lia|]. specialize (IH ck I). unfold top_of in IH. lia. Qed.
Lemma envK_malloc : forall K, malloc_ok (envK K).
Proof. intros K s k ck I. right. cbn. apply top_of_ge. exact I. Qed.

(** the index 39 in the form in which it is used *)
Record is39 (K : nat) : Prop := { k_max : (MAXBUDDY <=? K) = false; k_thr : (MAXTHRBUDDY <=? K) = true; k_sw : (K <? MAXBUDDY - 1) = false; k_chunk : (K <? DEFAULTCHUNKINDEX) = false; k_find : MAXBUDDY - K = 1; k_next : (MAXBUDDY <=? S K) = true }.
Lemma index39 : forall K, is39 K -> index_for MAXBUDDY (size K) 1 = K.
Proof.
  intros K [K1 K2 K3 K4 K5 K6]. apply Nat.leb_gt in K1. apply Nat.leb_le in K2. unfold MAXBUDDY, MAXTHRBUDDY in K1, K2.
  destruct (index_for_spec MAXBUDDY (size K) 1) as [Q1 [Q2 Q3]]. cbv zeta in *. set (k := index_for MAXBUDDY (size K) 1) in *. clearbody k. unfold MAXBUDDY in *.
  assert (k <= K) by (apply Q3; lia). assert (Hs : size K <= size k) by (apply Q2; lia).
  destruct (Nat.eq_dec k K) as [E|N]; [exact E|]. assert (size k <= size (K - 1)) by (apply size_mono; lia). pose proof (size_split K ltac:(lia)). pose proof (size_ge (rk K)). lia.
Qed.
Definition rootK (K : nat) : hdr := mkHdr false true false K false.
Record oneK (K : nat) (s : state) (fl : list nat) : Prop := {
  o_head : head s 1 = rootK K; o_b : forall i, i <> K -> buddy s i = []; o_39 : buddy s K = fl; o_t : forall t i, tbuddy s t i = []; o_c : chunks s = [(1, K)] }.

Lemma alloc_big_eq : forall K e t s, is39 K -> gc_alloc e t s (size K - 1) =
  do r <- root_alloc_big e s K; let '(s, b, g) := r in let h := head s b in Ret (set_head s b (mkHdr (hmark h) (hb h) (hm h) (hbix h) false), b, g).
Proof.
  intros K e t s HK. unfold gc_alloc. cbv zeta. pose proof (size_ge K). replace (Nat.max 3 (size K - 1 + 1)) with (size K) by lia. rewrite (index39 K HK), (k_max K HK), (k_thr K HK). reflexivity.
Qed.
Lemma allocK_take : forall K s fl, is39 K -> oneK K s (1 :: fl) -> exists s', gc_alloc (envK K) 0 s (size K - 1) = Ret (s', 1, false) /\ oneK K s' fl.
Proof.
  intros K s fl HK [H1 H2 H3 H4 H5]. rewrite (alloc_big_eq K _ _ _ HK). unfold root_alloc_big.
  assert (F : find_free s K = K). { unfold find_free. rewrite (k_find K HK). cbn [find_from]. rewrite H3. reflexivity. }
  rewrite F, (k_max K HK). cbn [bind split_down]. rewrite Nat.ltb_irrefl. cbn [bind]. rewrite H3. cbn [bind].
  eexists. split; [reflexivity|]. constructor.
  - cbn [set_head add_free set_buddy zero_cell head]. unfold upd. cbn [Nat.eqb]. rewrite H1. reflexivity.
  - intros i Hi. cbn [set_head add_free set_buddy zero_cell buddy]. unfold upd. rewrite (proj2 (Nat.eqb_neq i K) Hi). apply H2. exact Hi.
  - cbn [set_head add_free set_buddy zero_cell buddy]. unfold upd. rewrite Nat.eqb_refl. reflexivity.
  - intros t i. cbn [set_head add_free set_buddy zero_cell tbuddy]. apply H4.
  - cbn [set_head add_free set_buddy zero_cell chunks]. exact H5.
Qed.
Lemma allocK_first : forall K, is39 K -> exists s', gc_alloc (envK K) 0 empty_state (size K - 1) = Ret (s', 1, false) /\ oneK K s' [].
Proof.
  intros K HK. rewrite (alloc_big_eq K _ _ _ HK). unfold root_alloc_big.
  assert (F : find_free empty_state K = S K). { unfold find_free. rewrite (k_find K HK). reflexivity. }
  rewrite F, (k_next K HK). replace (Z.of_nat (size K) <? totalheap empty_state / 8)%Z with false by (symmetry; apply Z.ltb_ge; cbn [totalheap empty_state]; change (0 / 8)%Z with 0%Z; lia).
  cbn [bind]. rewrite (k_next K HK). unfold newchunk. rewrite (k_chunk K HK). cbv zeta. change (malloc (envK K) empty_state K) with 1.
  cbn [bind split_down]. rewrite Nat.ltb_irrefl. cbn [bind buddy]. unfold upd at 1. rewrite Nat.eqb_refl. cbn [bind].
  eexists. split; [reflexivity|]. constructor.
  - cbn [set_head add_free set_buddy zero_cell head]. unfold upd. cbn [Nat.eqb]. reflexivity.
  - intros i Hi. cbn [set_head add_free set_buddy zero_cell buddy]. unfold upd. rewrite (proj2 (Nat.eqb_neq i K) Hi). reflexivity.
  - cbn [set_head add_free set_buddy zero_cell buddy]. unfold upd. rewrite Nat.eqb_refl. reflexivity.
  - intros t i. reflexivity.
  - reflexivity.
Qed.
Lemma sweep_loop_S : forall f s p tail cbix g disp, sweep_loop (S f) s p tail cbix g disp =
  if p <? tail then
    let h := head s p in
    if hmark h then sweep_loop f (set_head s p (mkHdr false (hb h) (hm h) (hbix h) (hnod h))) (nextbuddy s p) tail cbix g disp
    else if hnod h then sweep_loop f s (nextbuddy s p) tail cbix g (if 256 <=? length disp then disp else disp ++ [p])
    else if (freeheap s <? g)%Z then sweep_loop f (reclaim s p) (nextbuddy s p) tail cbix g disp
    else do r <- mergecell f s p cbix; let '(s, np) := r in sweep_loop f (reclaim s p) np tail cbix g disp
  else Ret (s, disp).
Proof. reflexivity. Qed.
Lemma gcK : forall K s fl, is39 K -> oneK K s fl -> exists s', gc (envK K) s = Ret s' /\ oneK K s' (1 :: fl).
Proof.
  intros K s fl HK [H1 H2 H3 H4 H5]. unfold gc, sweepall. cbv zeta. pose proof (size_ge K) as S39.
  assert (Hm : forall x, head (marks s (nthr (envK K)) (live (envK K))) x = head s x). { intro x. cbn. rewrite !H4. reflexivity. }
  set (sm := marks s (nthr (envK K)) (live (envK K))) in *. cbn [chunks]. change (chunks sm) with (chunks s). rewrite H5. cbn [sweep_chunks].
  set (s0 := mkState _ _ _ _ _ _ _ _ _). change (fuel (envK K)) with (S (S 8)). rewrite sweep_loop_S. cbv zeta.
  replace (1 <? 1 + size K) with true by (symmetry; apply Nat.ltb_lt; lia).
  assert (H0 : head s0 1 = rootK K) by (change (head s0 1) with (head sm 1); rewrite Hm; exact H1). rewrite H0. cbn [hmark hnod rootK].
  change (freeheap s0) with 0%Z. change (merge_limit (envK K) sm) with (Z.of_nat (size K)). replace (0 <? Z.of_nat (size K))%Z with true by (symmetry; apply Z.ltb_lt; lia).
  assert (Hn : nextbuddy s0 1 = 1 + size K) by (unfold nextbuddy; rewrite H0; reflexivity). rewrite Hn.
  rewrite sweep_loop_S, Nat.ltb_irrefl. cbn [bind fst snd call_disposers].
  eexists. split; [reflexivity|]. unfold reclaim. rewrite H0. cbn [hbix rootK]. constructor.
  - cbn [head add_free set_buddy set_next]. exact H0.
  - intros i Hi. cbn [buddy add_free set_buddy set_next]. unfold upd. rewrite (proj2 (Nat.eqb_neq i K) Hi). change (buddy s0 i) with (if i <? MAXBUDDY - 1 then [] else buddy s i). destruct (i <? MAXBUDDY - 1); [reflexivity|apply H2; exact Hi].
  - cbn [buddy add_free set_buddy set_next]. unfold upd. rewrite Nat.eqb_refl. change (buddy s0 K) with (if K <? MAXBUDDY - 1 then [] else buddy s K). rewrite (k_sw K HK), H3. reflexivity.
  - intros t i. cbn [tbuddy add_free set_buddy set_next]. apply H4.
  - cbn [chunks add_free set_buddy set_next]. reflexivity.
Qed.
(** allocate, collect twice, allocate twice: the same cell is given out twice *)
Lemma double_allocK : forall K, is39 K -> exists s1 s2 s3 s4 s5, gc_alloc (envK K) 0 empty_state (size K - 1) = Ret (s1, 1, false) /\ gc (envK K) s1 = Ret s2 /\ gc (envK K) s2 = Ret s3 /\
  gc_alloc (envK K) 0 s3 (size K - 1) = Ret (s4, 1, false) /\ gc_alloc (envK K) 0 s4 (size K - 1) = Ret (s5, 1, false).
Proof.
  intros K HK. destruct (allocK_first K HK) as [s1 [E1 O1]]. destruct (gcK K s1 _ HK O1) as [s2 [E2 O2]]. destruct (gcK K s2 _ HK O2) as [s3 [E3 O3]].
  destruct (allocK_take K s3 _ HK O3) as [s4 [E4 O4]]. destruct (allocK_take K s4 _ HK O4) as [s5 [E5 O5]].
  exists s1, s2, s3, s4, s5. auto.
Qed.
Lemma is39_39 : is39 39. Proof. constructor; reflexivity. Qed.
