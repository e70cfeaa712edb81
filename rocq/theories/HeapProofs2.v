(** Proofs about the allocator, continued: the whole heap, collection and allocation. *)
From Verif Require Export HeapProofs.

(** ** The chunks of the heap *)
Definition disj (x y : nat * nat) : Prop := fst x + size (snd x) <= fst y \/ fst y + size (snd y) <= fst x.
Definition chunk_tiles (H : nat -> hdr) (ck : nat * nat) (ls : list nat) : Prop := tiles H (fst ck) (snd ck) true false ls.
Record geo (H : nat -> hdr) (cs : list (nat * nat)) (L : list (list nat)) : Prop := {
  g_tiles : Forall2 (chunk_tiles H) cs L;
  g_disj : ForallOrdPairs disj cs;
  g_ix : Forall (fun ck => 16 <= snd ck <= 38) cs }.

Lemma consecutive_apart : forall H ls a z x y, consecutive H a ls z -> In x ls -> In y ls -> x <> y -> x + size (hbix (H x)) <= y \/ y + size (hbix (H y)) <= x.
Proof.
  intros H. induction ls as [|w ls IH]; intros a z x y K Ix Iy N; [destruct Ix|]. cbn in K. destruct K as [-> K].
  destruct Ix as [<-|Ix], Iy as [<-|Iy].
  - congruence.
  - left. apply (consecutive_bounds _ _ _ _ _ K) in Iy. lia.
  - right. apply (consecutive_bounds _ _ _ _ _ K) in Ix. lia.
  - eapply IH; eauto.
Qed.
Lemma consecutive_length : forall H ls a z, consecutive H a ls z -> a + length ls <= z.
Proof. intros H. induction ls as [|w ls IH]; intros a z K; cbn in *; [lia|]. destruct K as [-> K]. apply IH in K. pose proof (size_ge (hbix (H a))). lia. Qed.
Lemma Forall2_in_r : forall {A B} (R : A -> B -> Prop) l1 l2 y, Forall2 R l1 l2 -> In y l2 -> exists x, In x l1 /\ R x y.
Proof. intros A B R l1 l2 y F I. induction F as [|a b l1 l2 Rab F IH]; [destruct I|]. destruct I as [<-|I]; [exists a; cbn; auto|]. destruct (IH I) as [x [J1 J2]]. exists x; cbn; auto. Qed.
Lemma tiles_bounds : forall H ck ls x, chunk_tiles H ck ls -> In x ls -> fst ck <= x /\ x + size (hbix (H x)) <= fst ck + size (snd ck).
Proof. intros H ck ls x T I. apply tiles_consecutive in T. apply (consecutive_bounds _ _ _ _ _ T I). Qed.
Lemma geo_in : forall H cs L x, geo H cs L -> In x (concat L) ->
  exists ck, In ck cs /\ fst ck <= x /\ x + size (hbix (H x)) <= fst ck + size (snd ck) /\ 1 <= hbix (H x) <= 38.
Proof.
  intros H cs L x [T D Ix] I. apply in_concat in I. destruct I as [ls [I1 I2]]. destruct (Forall2_in_r _ _ _ _ T I1) as [ck [I3 T3]].
  exists ck. split; [exact I3|]. destruct (tiles_bounds _ _ _ _ T3 I2) as [B1 B2]. split; [exact B1|]. split; [exact B2|].
  rewrite Forall_forall in Ix. apply Ix in I3. destruct (tiles_bix _ _ _ _ _ _ T3 x I2). lia.
Qed.
Lemma chunks_apart : forall H ck cs ls L x y, chunk_tiles H ck ls -> Forall2 (chunk_tiles H) cs L -> Forall (disj ck) cs -> In x ls -> In y (concat L) ->
  x + size (hbix (H x)) <= y \/ y + size (hbix (H y)) <= x.
Proof.
  intros H ck cs ls L x y T F D Ix Iy. apply in_concat in Iy. destruct Iy as [l2 [J1 J2]]. destruct (Forall2_in_r _ _ _ _ F J1) as [ck2 [J3 T2]].
  rewrite Forall_forall in D. specialize (D ck2 J3). destruct (tiles_bounds _ _ _ _ T Ix). destruct (tiles_bounds _ _ _ _ T2 J2). unfold disj in D. lia.
Qed.
Lemma tiles_all_apart : forall H cs L, Forall2 (chunk_tiles H) cs L -> ForallOrdPairs disj cs -> forall x y, In x (concat L) -> In y (concat L) -> x <> y ->
  x + size (hbix (H x)) <= y \/ y + size (hbix (H y)) <= x.
Proof.
  induction 1 as [|ck ls cs L T F IH]; intros D x y Ix Iy N; [destruct Ix|]. inversion D as [|? ? D1 D2]; subst. cbn in Ix, Iy. apply in_app_or in Ix. apply in_app_or in Iy.
  destruct Ix as [Ix|Ix], Iy as [Iy|Iy].
  - apply tiles_consecutive in T. eapply consecutive_apart; eauto.
  - eapply chunks_apart; eauto.
  - apply or_comm. eapply chunks_apart; eauto.
  - apply IH; auto.
Qed.
Lemma geo_apart : forall H cs L, geo H cs L -> forall x y, In x (concat L) -> In y (concat L) -> x <> y -> x + size (hbix (H x)) <= y \/ y + size (hbix (H y)) <= x.
Proof. intros H cs L [T D _]. apply (tiles_all_apart H cs L T D). Qed.
Lemma tiles_all_NoDup : forall H cs L, Forall2 (chunk_tiles H) cs L -> ForallOrdPairs disj cs -> NoDup (concat L).
Proof.
  induction 1 as [|ck ls cs L T F IH]; intro D; [constructor|]. inversion D as [|? ? D1 D2]; subst. cbn. apply NoDup_app_make.
  - eapply consecutive_NoDup, tiles_consecutive; exact T.
  - apply IH. exact D2.
  - intros x I J. destruct (chunks_apart _ _ _ _ _ x x T F D1 I J) as [K|K]; pose proof (size_ge (hbix (H x))); lia.
Qed.
Lemma geo_frame : forall H H' cs L, geo H cs L -> (forall x, In x (concat L) -> hbix (H' x) = hbix (H x) /\ hb (H' x) = hb (H x) /\ hm (H' x) = hm (H x)) -> geo H' cs L.
Proof.
  intros H H' cs L [T D Ix] F. constructor; auto. clear D Ix. induction T as [|ck ls cs L T1 T2 IH]; [constructor|]. constructor.
  - eapply tiles_frame; [exact T1|]. intros x I. apply F. cbn. apply in_or_app. auto.
  - apply IH. intros x I. apply F. cbn. apply in_or_app. auto.
Qed.

(** ** Sweeping all chunks *)
Lemma swept_app : forall l1 l2 s s1 s' l1' l2' f1 f2 d1 d2, (forall x, In x l1 -> ~ In x l2) -> swept l1 s s1 l1' f1 d1 -> swept l2 s1 s' l2' f2 d2 -> swept (l1 ++ l2) s s' (l1' ++ l2') (f1 ++ f2) (d1 ++ d2).
Proof.
  intros l1 l2 s s1 s' l1' l2' f1 f2 d1 d2 D [A1 A2 A3 A4 A5 A6 A7 A8 A9 A10] [B1 B2 B3 B4 B5 B6 B7 B8 B9 B10].
  assert (Q1 : forall x, In x l2 -> head s1 x = head s x) by (intros x I; apply A6; intro J; apply (D x); auto).
  assert (Q2 : forall x, In x l1 -> head s' x = head s1 x) by (intros x I; apply B6, D; exact I).
  assert (Q3 : forall x, In x l1' -> In x l1) by (intros x I; apply A2; exact I).
  assert (Q4 : forall x, In x l2' -> In x l2) by (intros x I; apply B2; exact I).
  constructor.
  - intros x I. apply in_or_app. apply in_app_or in I. destruct I as [I|I]; auto.
  - intros x I. apply in_app_or in I. rewrite !in_app_iff. destruct I as [I|I].
    + destruct (A2 x I) as [? [?|?]]; auto.
    + destruct (B2 x I) as [J [?|K]]; auto. rewrite Q1 in K by exact J. auto.
  - intros x I K. rewrite !in_app_iff. apply in_app_or in I. destruct I as [I|I].
    + destruct (A3 x I K) as [J1 [J2 J3]]. split; [auto|]. split; [|rewrite Q2 by exact I; exact J3]. intros [J|J]; [auto|]. apply (D x I). auto.
    + rewrite <- Q1 in K by exact I. destruct (B3 x I K) as [J1 [J2 J3]]. split; [auto|]. split; [|rewrite J3, Q1 by exact I; reflexivity]. intros [J|J]; [|auto]. apply (D x); auto.
  - intros x I. apply in_app_or in I. destruct I as [I|I]; [rewrite Q2 by auto|]; auto.
  - intros x I. apply in_app_or in I. destruct I as [I|I].
    + destruct (A5 x I) as [J1 J2]. rewrite Q2 by auto. auto.
    + destruct (B5 x I) as [J1 J2]. rewrite Q1 in J1 by auto. auto.
  - intros x I. rewrite B6, A6; auto; intro J; apply I, in_or_app; auto.
  - eapply freed_trans; [exact A7|exact B7| |].
    + intros x I J. apply (D x); auto.
    + intros x I. rewrite Q2 by auto. reflexivity.
  - intros y Y1 Y2. rewrite B8, A8; auto.
    + intros x I. apply Y1, in_or_app; auto.
    + intros x I. apply Y2, in_or_app; auto.
    + intros x I. apply Y1, in_or_app; auto.
    + intros x I K. apply Y2; [apply in_or_app; auto|]. rewrite <- Q1 by exact I. exact K.
  - destruct A9 as [? [? [? ?]]]. destruct B9 as [? [? [? ?]]]. repeat split; congruence.
  - intros x I. apply in_app_or in I. destruct I as [I|I].
    + destruct (A10 x I). rewrite in_app_iff. auto.
    + destruct (B10 x I) as [J K]. rewrite Q1 in K by exact J. rewrite in_app_iff. auto.
Qed.
Lemma swept_nil : forall s, swept [] s s [] [] [].
Proof. intro s. constructor; auto; try (intros x []). apply freed_refl; reflexivity. repeat split. Qed.

Lemma sweep_chunks_ok : forall f g cs L s disp, Forall2 (chunk_tiles (head s)) cs L -> ForallOrdPairs disj cs -> Forall (fun ck => size (snd ck) < f) cs ->
  exists s' disp' d L' fr, sweep_chunks f s cs g disp = Ret (s', disp') /\ incl disp' (disp ++ d) /\ Forall2 (chunk_tiles (head s')) cs L' /\ swept (concat L) s s' (concat L') fr d.
Proof.
  induction cs as [|[c k] cs IH]; intros L s disp F D Hf.
  - inversion F; subst. exists s, disp, [], [], []. split; [reflexivity|]. split; [apply incl_appl, incl_refl|]. split; [constructor|]. apply swept_nil.
  - inversion F as [|? ls ? L1 T F1]; subst. inversion D as [|? ? D1 D2]; subst. inversion Hf as [|? ? Hf1 Hf2]; subst. cbn [snd] in Hf1. cbn [sweep_chunks].
    assert (C := tiles_consecutive _ _ _ _ _ _ T). cbn [fst snd] in C.
    assert (Hlen : length ls < f) by (apply consecutive_length in C; lia).
    assert (Dj : forall x, In x ls -> ~ In x (concat L1)).
    { intros x I J. destruct (chunks_apart _ _ _ _ _ x x T F1 D1 I J) as [K|K]; pose proof (size_ge (hbix (head s x))); lia. }
    destruct (sweep_loop_ok f s c k [] ls c g disp T C Hlen) as [s1 [disp1 [d1 [ls' [fr1 [E1 [Id1 [T1 Sw1]]]]]]]]. rewrite E1. cbn [bind fst snd]. cbn [app] in T1.
    destruct (IH L1 s1 disp1) as [s2 [disp2 [d2 [L2 [fr2 [E2 [Id2 [T2 Sw2]]]]]]]]; auto.
    + clear - F1 Dj Sw1. revert Dj. induction F1 as [|ck l cs L T F IH]; intro Dj; [constructor|]. constructor.
      * eapply tiles_frame; [exact T|]. intros x I. rewrite (sw_frame _ _ _ _ _ _ Sw1); [auto|]. intro J. apply (Dj x J). cbn. apply in_or_app. auto.
      * apply IH. intros x I J. apply (Dj x I). cbn. apply in_or_app. auto.
    + rewrite E2. exists s2, disp2, (d1 ++ d2), (ls' :: L2), (fr1 ++ fr2). split; [reflexivity|]. split.
      * intros x I. apply Id2 in I. rewrite !in_app_iff in *. destruct I as [I|I]; [|auto]. apply Id1 in I. rewrite in_app_iff in I. tauto.
      * assert (Q : forall x, In x ls' -> head s2 x = head s1 x).
        { intros x I. apply (sw_frame _ _ _ _ _ _ Sw2). apply Dj. apply (sw_all _ _ _ _ _ _ Sw1 x I). }
        split; [constructor; [|exact T2]|].
        -- eapply tiles_frame; [exact T1|]. intros x I. rewrite Q by exact I. auto.
        -- cbn. eapply swept_app; eauto.
Qed.

Lemma call_disposers_ok : forall ps s, let s' := call_disposers s ps in
  (forall x, hmark (head s' x) = hmark (head s x) /\ hb (head s' x) = hb (head s x) /\ hm (head s' x) = hm (head s x) /\ hbix (head s' x) = hbix (head s x)) /\
  (forall x, hnod (head s' x) = true -> hnod (head s x) = true) /\
  buddy s' = buddy s /\ cnt s' = cnt s /\ freeheap s' = freeheap s /\ same_lists s s' /\ (forall y, ~ In y ps -> mem s' y = mem s y).
Proof.
  induction ps as [|p ps IH]; intro s; cbn [call_disposers]; cbv zeta.
  - unfold same_lists. auto 20.
  - set (h := head s p). set (s1 := set_head s p (mkHdr (hmark h) (hb h) (hm h) (hbix h) false)).
    destruct (IH s1) as [A1 [A2 [A3 [A4 [A5 [A6 A7]]]]]]. cbv zeta in *.
    assert (Q : forall x, hmark (head s1 x) = hmark (head s x) /\ hb (head s1 x) = hb (head s x) /\ hm (head s1 x) = hm (head s x) /\ hbix (head s1 x) = hbix (head s x) /\ (hnod (head s1 x) = true -> hnod (head s x) = true)).
    { intro x. destruct (Nat.eq_dec x p) as [->|N]; [unfold s1; rewrite set_head_same; repeat split; cbn; discriminate|unfold s1; rewrite set_head_other by exact N; auto]. }
    split; [|split; [|repeat split]].
    + intro x. destruct (A1 x) as [? [? [? ?]]]. destruct (Q x) as [? [? [? [? ?]]]]. repeat split; congruence.
    + intros x H. apply (Q x). apply A2. exact H.
    + rewrite A3. reflexivity.
    + rewrite A4. reflexivity.
    + rewrite A5. reflexivity.
    + destruct A6 as [E _]. rewrite E. reflexivity.
    + destruct A6 as [_ [E _]]. rewrite E. reflexivity.
    + destruct A6 as [_ [_ [E _]]]. rewrite E. reflexivity.
    + destruct A6 as [_ [_ [_ E]]]. rewrite E. reflexivity.
    + intros y N. rewrite A7 by (intro J; apply N; right; exact J). cbn. unfold upd. destruct (Nat.eqb_spec y p) as [->|_]; [exfalso; apply N; left; reflexivity|reflexivity].
Qed.

(** ** A collection *)
Definition stays (e : env) (s : state) (x : nat) : bool := live e x || in_threads s (nthr e) x || hnod (head s x).
Record collected (e : env) (s s' : state) (L L' : list (list nat)) (fr : list nat) : Prop := {
  co_geo : geo (head s') (chunks s') L';
  co_kept : forall x, In x (concat L) -> stays e s x = true -> In x (concat L') /\ ~ In x fr /\ hbix (head s' x) = hbix (head s x);
  co_all : forall x, In x (concat L') -> In x (concat L) /\ (In x fr \/ stays e s x = true);
  co_fr : forall x, In x fr -> In x (concat L') /\ stays e s x = false /\ hnod (head s' x) = false;
  co_mark : forall x, In x (concat L') -> hmark (head s' x) = false;
  co_buddy : forall i x, i <= 38 -> (In x (buddy s' i) <-> In x fr /\ hbix (head s' x) = i);
  co_nodup : forall i, i <= 38 -> NoDup (buddy s' i);
  co_cnt : forall i, i <= 38 -> cnt s' i = Z.of_nat (length (buddy s' i));
  co_39 : forall i, 39 <= i -> buddy s' i = buddy s i;
  co_free : freeheap s' = Z.of_nat (list_sum (map (fun x => size (hbix (head s' x))) fr));
  co_lists : same_lists s s';
  co_nod : forall x, In x (concat L') -> hnod (head s' x) = true -> hnod (head s x) = true;
  co_mem : forall a off, In a (concat L) -> stays e s a = true -> 0 < off < size (hbix (head s a)) -> mem s' (a + off) = mem s (a + off) }.

Lemma gc_ok : forall e s L, geo (head s) (chunks s) L -> (forall x, live e x = true -> In x (concat L)) -> (forall x, in_threads s (nthr e) x = true -> In x (concat L)) ->
  (forall x, In x (concat L) -> hmark (head s x) = false) -> Forall (fun ck => size (snd ck) < fuel e) (chunks s) ->
  exists s' L' fr, gc e s = Ret s' /\ collected e s s' L L' fr.
Proof.
  intros e s L G Lv Th Mk Hf. unfold gc, sweepall. set (sm := marks s (nthr e) (live e)). set (g := merge_limit e sm).
  set (s0 := mkState (head sm) (fun i => if i <? MAXBUDDY - 1 then [] else buddy sm i) (fun i => if i <? MAXBUDDY - 1 then 0%Z else cnt sm i) (tbuddy sm) (tcnt sm) (chunks sm) 0 (totalheap sm) (mem sm)).
  assert (Hgeo : forall x, hbix (head s0 x) = hbix (head s x) /\ hb (head s0 x) = hb (head s x) /\ hm (head s0 x) = hm (head s x) /\ hnod (head s0 x) = hnod (head s x)).
  { intro x. cbn. destruct (live e x || in_threads s (nthr e) x); auto. }
  assert (Hk : forall x, In x (concat L) -> kept (head s0 x) = stays e s x).
  { intros x I. unfold kept, stays. cbn. destruct (live e x || in_threads s (nthr e) x); cbn; [reflexivity|]. rewrite Mk by exact I. reflexivity. }
  assert (G0 : geo (head s0) (chunks s0) L). { eapply geo_frame; [exact G|]. intros x _. destruct (Hgeo x) as [? [? [? ?]]]. auto. }
  assert (G0' := G0). destruct G0 as [T0 D0 I0].
  destruct (sweep_chunks_ok (fuel e) g (chunks s0) L s0 [] T0 D0 Hf) as [s1 [disp1 [d1 [L' [fr [E1 [Id1 [T1 Sw]]]]]]]].
  change (chunks s0) with (chunks s) in *.
  exists (call_disposers s1 disp1), L', fr. split. { rewrite E1. reflexivity. }
  destruct (call_disposers_ok disp1 s1) as [C1 [C2 [C3 [C4 [C5 [C6 C7]]]]]]. cbv zeta in *. set (s' := call_disposers s1 disp1) in *.
  destruct Sw as [A1 A2 A3 A4 A5 A6 A7 A8 A9 A10].
  assert (L1 : chunks s1 = chunks s) by (destruct A9 as [_ [_ [K _]]]; exact K).
  assert (Lc : chunks s' = chunks s) by (destruct C6 as [_ [_ [K _]]]; congruence).
  assert (Gs : geo (head s') (chunks s') L').
  { rewrite Lc. apply (geo_frame (head s1)); [|intros x _; destruct (C1 x) as [? [? [? ?]]]; auto]. constructor; [exact T1|exact D0|exact I0]. }
  assert (Hall : forall x, In x fr -> In x (concat L)) by (intros x I; apply A2, A1; exact I).
  destruct A7 as [nw [F1 [F2 F3]]].
  assert (Hbix : forall x, hbix (head s' x) = hbix (head s1 x)) by (intro x; apply (C1 x)).
  constructor.
  - exact Gs.
  - intros x I K. rewrite <- Hk in K by exact I. destruct (A3 x I K) as [J1 [J2 J3]]. split; [exact J1|]. split; [exact J2|]. rewrite Hbix, J3. cbn [unmark hbix]. apply Hgeo.
  - intros x I. destruct (A2 x I) as [J1 J2]. split; [exact J1|]. rewrite Hk in J2 by exact J1. exact J2.
  - intros x I. split; [apply A1; exact I|]. destruct (A5 x I) as [J1 J2]. rewrite Hk in J1 by auto. split; [exact J1|]. destruct (hnod (head s' x)) eqn:N; [|reflexivity]. apply C2 in N. congruence.
  - intros x I. destruct (C1 x) as [-> _]. apply A4. exact I.
  - intros i x Hi. rewrite C3. destruct (F1 i) as [-> _]. cbn [buddy s0]. assert (Hlt : (i <? MAXBUDDY - 1) = true) by (apply Nat.ltb_lt; unfold MAXBUDDY; lia).
    change (buddy s0 i) with (if i <? MAXBUDDY - 1 then [] else buddy sm i). rewrite Hlt, app_nil_r, F2, Hbix. tauto.
  - intros i Hi. rewrite C3. destruct (F1 i) as [-> [_ N]]. assert (Hlt : (i <? MAXBUDDY - 1) = true) by (apply Nat.ltb_lt; unfold MAXBUDDY; lia).
    change (buddy s0 i) with (if i <? MAXBUDDY - 1 then [] else buddy sm i). rewrite Hlt, app_nil_r. exact N.
  - intros i Hi. rewrite C3, C4. destruct (F1 i) as [-> [-> _]]. assert (Hlt : (i <? MAXBUDDY - 1) = true) by (apply Nat.ltb_lt; unfold MAXBUDDY; lia).
    change (buddy s0 i) with (if i <? MAXBUDDY - 1 then [] else buddy sm i). change (cnt s0 i) with (if i <? MAXBUDDY - 1 then 0%Z else cnt sm i). rewrite Hlt, app_nil_r. reflexivity.
  - intros i Hi. rewrite C3. destruct (F1 i) as [-> _]. assert (Hlt : (i <? MAXBUDDY - 1) = false) by (apply Nat.ltb_ge; unfold MAXBUDDY; lia).
    change (buddy s0 i) with (if i <? MAXBUDDY - 1 then [] else buddy s i). rewrite Hlt. assert (nw i = []) as ->; [|reflexivity].
    destruct (nw i) as [|x r] eqn:En; [reflexivity|]. exfalso. assert (I : In x (nw i)) by (rewrite En; left; reflexivity). apply F2 in I. destruct I as [I1 I2].
    destruct (geo_in _ _ _ x Gs (A1 x I1)) as [ck [_ [_ [_ K]]]]. rewrite Hbix in K. lia.
  - rewrite C5, F3. change (freeheap s0) with 0%Z. rewrite Z.add_0_l. do 2 f_equal. apply map_ext. intro x. rewrite Hbix. reflexivity.
  - destruct A9 as [? [? [? ?]]]. destruct C6 as [? [? [? ?]]]. repeat split; [transitivity (tbuddy s1)|transitivity (tcnt s1)|transitivity (chunks s1)|transitivity (totalheap s1)]; auto.
  - intros x I N. destruct (A2 x I) as [J1 _]. apply C2 in N. destruct (kept (head s0 x)) eqn:K.
    + destruct (A3 x J1 K) as [_ [_ J3]]. rewrite J3 in N. cbn [unmark hnod] in N. destruct (Hgeo x) as [_ [_ [_ J4]]]. congruence.
    + destruct (A2 x I) as [_ [J|J]]; [|congruence]. destruct (A5 x J) as [_ J2]. congruence.
  - intros a off Ia Sa Ho. assert (Nc : forall x, In x (concat L) -> a + off <> x).
    { intros x Ix E. assert (Na : a <> x) by lia. destruct (geo_apart _ _ _ G a x Ia Ix Na) as [K|K]; lia. }
    rewrite C7.
    + rewrite A8.
      * change (mem s0 (a + off)) with (if live e (a + off) || in_threads s (nthr e) (a + off) then hword (head sm (a + off)) else mem s (a + off)).
        destruct (live e (a + off)) eqn:E3; [exfalso; apply (Nc (a + off)); auto|]. destruct (in_threads s (nthr e) (a + off)) eqn:E4; [exfalso; apply (Nc (a + off)); auto|]. reflexivity.
      * exact Nc.
      * intros x Ix K E. assert (Na : a <> x). { intros ->. rewrite Hk in K by exact Ix. congruence. }
        destruct (geo_apart _ _ _ G a x Ia Ix Na) as [K2|K2]; [lia|]. pose proof (size_ge (hbix (head s x))). lia.
    + intro I. apply Id1 in I. cbn in I. apply A10 in I. destruct I as [I _]. apply (Nc (a + off) I). reflexivity.
Qed.
