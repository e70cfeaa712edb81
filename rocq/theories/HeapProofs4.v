(** Proofs about the allocator, continued: collection and allocation keep the invariant. *)
From Verif Require Export HeapProofs3.

Lemma find_from_spec : forall n s k, let k' := find_from n s k in k <= k' <= k + n /\ (k' < k + n -> buddy s k' <> []).
Proof.
  induction n as [|n IH]; intros s k; cbn [find_from]; cbv zeta; [lia|]. destruct (buddy s k) as [|x r] eqn:E.
  - destruct (IH s (S k)) as [A B]. cbv zeta in *. split; [lia|]. intro H. apply B. lia.
  - split; [lia|]. intros _. rewrite E. discriminate.
Qed.
Lemma find_free_spec : forall N s L A k, Inv N s L A -> k <= 38 -> let k' := find_free s k in k <= k' /\ (k' < MAXBUDDY -> buddy s k' <> [] /\ k' <= 38).
Proof.
  intros N s L A k V Hk. unfold find_free. destruct (find_from_spec (MAXBUDDY - k) s k) as [B1 B2]. cbv zeta in *. split; [lia|]. intro H.
  assert (Nb : buddy s (find_from (MAXBUDDY - k) s k) <> []) by (apply B2; unfold MAXBUDDY in *; lia). split; [exact Nb|].
  destruct (buddy s (find_from (MAXBUDDY - k) s k)) as [|x r] eqn:E; [congruence|]. apply (inv_root_ix N s L A _ x V). rewrite E. left. reflexivity.
Qed.
Lemma fill_margin_ok : forall e N A f s L k, malloc_ok e -> k <= 38 -> Inv N s L A ->
  match fill_margin f e s k with
  | Ret s' => exists L', Inv N s' L' A /\ safe s s' A /\ incl (concat L) (concat L') /\ tbuddy s' = tbuddy s /\ length (chunks s) <= length (chunks s') /\ (s' = s \/ (length (chunks s) < length (chunks s') /\ buddy s' (Nat.max 16 k) <> []))
  | Hang => True | _ => False end.
Proof.
  intros e N A. induction f as [|f IH]; intros s L k M Hk V; cbn [fill_margin]; [exact Logic.I|]. destruct (short e s).
  - destruct (newchunk_ok e N s L A k M V Hk) as [L1 [V1 [S1 [E1 [B1 [I1 [T1 C1]]]]]]]. set (s1 := fst (newchunk (malloc e) s k)) in *.
    specialize (IH s1 L1 k M Hk V1). destruct (fill_margin f e s1 k) as [s'| | |]; auto. destruct IH as [L' [V' [S' [I' [T' [C' D']]]]]].
    exists L'. split; [exact V'|]. split; [eapply safe_trans; eassumption|]. split; [eapply incl_tran; eassumption|]. split; [congruence|]. split; [lia|]. right. split; [lia|].
    destruct D' as [->|[_ D']]; [rewrite <- E1; exact B1|exact D'].
  - exists L. split; [exact V|]. split; [apply safe_refl|]. split; [apply incl_refl|]. auto.
Qed.
Lemma split_down_ok : forall N A f s L req k, Inv N s L A -> 1 <= req <= k -> buddy s k <> [] -> k < f ->
  exists s' L', split_down f s req k = Ret s' /\ Inv N s' L' A /\ safe s s' A /\ buddy s' req <> [] /\ incl (concat L) (concat L') /\ tbuddy s' = tbuddy s.
Proof.
  intros N A. induction f as [|f IH]; intros s L req k V Hr Nb Hf; [lia|]. cbn [split_down]. destruct (Nat.ltb_spec req k) as [Lt|Ge].
  - destruct (splitheap_ok N s L A k V Nb ltac:(lia)) as [s1 [L1 [E1 [V1 [S1 [B1 [B2 [I1 [T1 _]]]]]]]]]. rewrite E1. cbn [bind]. cbv zeta.
    set (k2 := if req <? k - 1 then k - 1 - 1 else k - 1).
    assert (H2 : req <= k2 < k /\ buddy s1 k2 <> []).
    { unfold k2. destruct (Nat.ltb_spec req (k - 1)); [|split; [lia|exact B1]]. split; [lia|]. replace (k - 1 - 1) with (rk k); [exact B2|]. unfold rk. destruct (Nat.eqb_spec k 2); lia. }
    destruct H2 as [H2 N2]. destruct (IH s1 L1 req k2 V1 ltac:(lia) N2 ltac:(lia)) as [s' [L' [E' [V' [S' [B' [I' T']]]]]]].
    exists s', L'. split; [exact E'|]. split; [exact V'|]. split; [eapply safe_trans; eassumption|]. split; [exact B'|]. split; [eapply incl_tran; eassumption|congruence].
  - exists s, L. assert (req = k) by lia. subst k. split; [reflexivity|]. split; [exact V|]. split; [apply safe_refl|]. split; [exact Nb|]. split; [apply incl_refl|reflexivity].
Qed.

(** ** The collector keeps the invariant *)
Definition survives (e : env) (s : state) (x : nat) : bool := live e x || hnod (head s x).
Definition survivors (e : env) (s : state) (A : list nat) : list nat := filter (survives e s) A.
Lemma in_threads_spec : forall s n x, in_threads s n x = true <-> exists t i, t < n /\ 1 <= i < MAXTHRBUDDY /\ In x (tbuddy s t i).
Proof.
  intros s n x. unfold in_threads. rewrite existsb_exists. split.
  - intros [t [It H]]. apply existsb_exists in H. destruct H as [i [Ii H]]. apply existsb_exists in H. destruct H as [y [Iy E]]. apply Nat.eqb_eq in E. subst y.
    apply in_seq in It, Ii. exists t, i. unfold MAXTHRBUDDY in *. split; [lia|]. split; [lia|exact Iy].
  - intros [t [i [Ht [Hi I]]]]. exists t. split; [apply in_seq; lia|]. apply existsb_exists. exists i. split; [apply in_seq; unfold MAXTHRBUDDY in *; lia|]. apply existsb_exists. exists x. split; [exact I|apply Nat.eqb_refl].
Qed.
Lemma gc_inv : forall e N s L A, nthr e = N -> Inv N s L A -> (forall x, live e x = true -> In x (concat L)) -> Forall (fun ck => size (snd ck) < fuel e) (chunks s) ->
  exists s' L' fr, gc e s = Ret s' /\ collected e s s' L L' fr /\ Inv N s' L' (survivors e s A) /\
    (forall a, In a (survivors e s A) -> hbix (head s' a) = hbix (head s a) /\ forall off, 0 < off < size (hbix (head s a)) -> mem s' (a + off) = mem s (a + off)).
Proof.
  intros e N s L A EN V Lv Hf.
  destruct (gc_ok e s L (v_geo _ _ _ _ V) Lv) as [s' [L' [fr [E C]]]]; [|apply (v_mark _ _ _ _ V)|exact Hf|].
  { intros x H. apply in_threads_spec in H. destruct H as [t [i [_ [_ I]]]]. apply (v_cell _ _ _ _ V (Thr t i) x I). }
  exists s', L', fr. split; [exact E|]. split; [exact C|]. destruct C as [C1 C2 C3 C4 C5 C6 C7 C8 C9 C10 C11 C12 C13]. destruct C11 as [T1 [T2 [T3 T4]]].
  assert (St : forall x t i, In x (tbuddy s t i) -> stays e s x = true).
  { intros x t i I. unfold stays. assert (in_threads s (nthr e) x = true) as ->; [|rewrite orb_true_r; reflexivity].
    apply in_threads_spec. exists t, i. destruct (v_thr _ _ _ _ V t i) as [K1 K2]; [intro K; rewrite K in I; destruct I|]. split; [congruence|]. auto. }
  assert (Su : forall x, In x (survivors e s A) -> In x A /\ In x (concat L) /\ stays e s x = true).
  { intros x I. apply filter_In in I. destruct I as [I1 I2]. split; [exact I1|]. split; [apply (v_cell _ _ _ _ V User x I1)|]. unfold stays, survives in *. apply orb_true_iff in I2. destruct I2 as [->| ->]; [reflexivity|apply orb_true_r]. }
  assert (B39 : forall i, 39 <= i -> buddy s i = []).
  { intros i Hi. destruct (buddy s i) as [|x r] eqn:Eb; [reflexivity|]. exfalso. assert (K := inv_root_ix N s L A i x V). rewrite Eb in K. specialize (K (or_introl eq_refl)). lia. }
  assert (Bd : forall i x, In x (buddy s' i) -> In x fr /\ hbix (head s' x) = i).
  { intros i x I. destruct (Nat.le_gt_cases i 38) as [Hi|Hi]; [apply C6; assumption|]. rewrite C9, B39 in I by lia. destruct I. }
  split.
  - constructor.
    + exact C1.
    + intros o x I. destruct o as [i|t i|]; cbn [owned] in I.
      * apply Bd in I. destruct I as [I1 I2]. split; [apply C4; exact I1|exact I2].
      * rewrite T1 in I. destruct (v_cell _ _ _ _ V (Thr t i) x I) as [J1 J2]. destruct (C2 x J1 (St x t i I)) as [K1 [K2 K3]]. split; [exact K1|]. rewrite K3. exact J2.
      * destruct (Su x I) as [J1 [J2 J3]]. split; [apply C2; assumption|exact Logic.I].
    + assert (Fr : forall o x, o <> User -> In x (owned s' (survivors e s A) o) -> match o with Root i => In x fr | Thr t i => In x (owned s A o) | User => False end).
      { intros o x No I. destruct o as [i|t i|]; cbn [owned] in *; [apply Bd in I; tauto|rewrite T1 in I; exact I|congruence]. }
      assert (Nf : forall x, In x fr -> stays e s x = false) by (intros x I; apply C4; exact I).
      intros o o' x I I'. destruct o as [i|t i|], o' as [i'|t' i'|]; cbn [owned] in I, I'; try reflexivity.
      * apply Bd in I, I'. destruct I as [_ <-], I' as [_ <-]. reflexivity.
      * exfalso. apply Bd in I. destruct I as [I _]. rewrite T1 in I'. apply Nf in I. apply St in I'. congruence.
      * exfalso. apply Bd in I. destruct I as [I _]. apply Nf in I. apply Su in I'. destruct I' as [_ [_ I']]. congruence.
      * exfalso. apply Bd in I'. destruct I' as [I' _]. rewrite T1 in I. apply Nf in I'. apply St in I. congruence.
      * rewrite T1 in I, I'. apply (v_uniq _ _ _ _ V (Thr t i) (Thr t' i') x I I').
      * rewrite T1 in I. apply Su in I'. destruct I' as [I' _]. apply (v_uniq _ _ _ _ V (Thr t i) User x I I').
      * exfalso. apply Bd in I'. destruct I' as [I' _]. apply Nf in I'. apply Su in I. destruct I as [_ [_ I]]. congruence.
      * rewrite T1 in I'. apply Su in I. destruct I as [I _]. apply (v_uniq _ _ _ _ V User (Thr t' i') x I I').
    + intros o. destruct o as [i|t i|]; cbn [owned].
      * destruct (Nat.le_gt_cases i 38) as [Hi|Hi]; [apply C7; exact Hi|]. rewrite C9, B39 by lia. constructor.
      * rewrite T1. apply (v_nodup _ _ _ _ V (Thr t i)).
      * apply NoDup_filter. apply (v_nodup _ _ _ _ V User).
    + exact C5.
    + rewrite T1. apply (v_thr _ _ _ _ V).
    + intros i Hi. apply C8. lia.
    + rewrite T1, T2. apply (v_tcnt _ _ _ _ V).
  - intros a I. apply Su in I. destruct I as [I1 [I2 I3]]. split; [apply C2; assumption|]. intros off Ho. apply C13; assumption.
Qed.

(** ** Allocation of a big cell *)
Definition safe_some (s s' : state) (A : list nat) : Prop := forall a, In a A ->
  hbix (head s' a) = hbix (head s a) /\ forall off, 0 < off < size (hbix (head s a)) -> mem s' (a + off) = mem s (a + off).
Lemma safe_safe_some : forall s s' A, safe s s' A -> safe_some s s' A.
Proof. intros s s' A H a I. destruct (H a I) as [A1 [A2 A3]]. auto. Qed.
Lemma safe_some_trans : forall s1 s2 s3 A, safe_some s1 s2 A -> safe_some s2 s3 A -> safe_some s1 s3 A.
Proof. intros s1 s2 s3 A H1 H2 a I. destruct (H1 a I) as [E1 E3]. destruct (H2 a I) as [F1 F3]. split; [congruence|]. intros off Ho. rewrite F3, E3; auto. rewrite E1. exact Ho. Qed.
Lemma safe_some_incl : forall s s' A B, incl B A -> safe_some s s' A -> safe_some s s' B.
Proof. intros s s' A B I H a Ia. apply H, I, Ia. Qed.
Lemma survivors_incl : forall e s A, incl (survivors e s A) A.
Proof. intros e s A x I. apply filter_In in I. tauto. Qed.
Lemma survivors_ext : forall e s s' A, safe s s' A -> survivors e s' A = survivors e s A.
Proof. intros e s s' A H. apply filter_ext_in. intros x I. unfold survives. destruct (H x I) as [_ [-> _]]. reflexivity. Qed.

(** taking a cell from its list and giving it to the user *)
Lemma give_inv : forall N s L A o b rest k s', Inv N s L A -> o <> User -> owned s A o = b :: rest -> k = hbix (head s b) ->
  head s' = head s -> chunks s' = chunks s -> (forall o', o' <> User -> o' <> o -> owned s' A o' = owned s A o') -> owned s' A o = rest ->
  (forall i, i < 16 -> cnt s' i = Z.of_nat (length (buddy s' i))) -> (forall t i, tcnt s' t i = Z.of_nat (length (tbuddy s' t i))) ->
  (forall y, mem s' y = if (b <? y) && (y <? b + size k) then 0 else mem s y) ->
  Inv N s' L (b :: A) /\ safe s s' A.
Proof.
  intros N s L A o b rest k s' V No Eo Ek Hd Ch Ow Ob Cn Tc Mm.
  assert (Ib : In b (owned s A o)) by (rewrite Eo; left; reflexivity).
  assert (Nd := v_nodup _ _ _ _ V o). rewrite Eo in Nd. apply NoDup_cons_iff in Nd. destruct Nd as [Nd1 Nd2].
  assert (Cl := v_cell _ _ _ _ V o b Ib). destruct Cl as [Cb _].
  assert (NbA : ~ In b A) by (apply (inv_free_not_user N s L A o b V Ib No)).
  assert (Sub : forall o' x, o' <> User -> In x (owned s' A o') -> In x (owned s A o') /\ x <> b).
  { intros o' x No' I. assert (De : o' = o \/ o' <> o). { destruct o' as [i|t i|], o as [j|u j|]; try (right; congruence); try (destruct (Nat.eq_dec i j); [|right; congruence]; try (destruct (Nat.eq_dec t u); [|right; congruence]); left; congruence); left; reflexivity. }
    destruct De as [->|De].
    - rewrite Ob in I. split; [rewrite Eo; right; exact I|]. intros ->. contradiction.
    - rewrite Ow in I by assumption. split; [exact I|]. intros ->. apply De. apply (v_uniq _ _ _ _ V _ _ b I Ib). }
  split.
  - constructor.
    + rewrite Hd, Ch. apply (v_geo _ _ _ _ V).
    + intros o' x I. rewrite Hd. destruct o' as [i|t i|].
      * apply (v_cell _ _ _ _ V (Root i)). apply (Sub (Root i)); [discriminate|exact I].
      * apply (v_cell _ _ _ _ V (Thr t i)). apply (Sub (Thr t i)); [discriminate|exact I].
      * destruct I as [<-|I]; [auto|]. apply (v_cell _ _ _ _ V User x I).
    + assert (Q : forall o1 x, In x (owned s' (b :: A) o1) -> (x = b /\ o1 = User) \/ (x <> b /\ In x (owned s A o1))).
      { intros o1 x I. destruct o1 as [i|t i|].
        - right. destruct (Sub (Root i) x ltac:(discriminate) I). auto.
        - right. destruct (Sub (Thr t i) x ltac:(discriminate) I). auto.
        - destruct I as [<-|I]; [auto|]. right. split; [intros ->; contradiction|exact I]. }
      intros o1 o2 x I1 I2. apply Q in I1, I2. destruct I1 as [[E1 ->]|[E1 I1]], I2 as [[E2 ->]|[E2 I2]]; try congruence. apply (v_uniq _ _ _ _ V _ _ x I1 I2).
    + intros o1. destruct o1 as [i|t i|].
      * change (NoDup (owned s' A (Root i))). destruct o as [j|u j|]; [destruct (Nat.eq_dec i j) as [->|Ni]; [rewrite Ob; exact Nd2|]| |congruence]; (rewrite Ow by congruence); apply (v_nodup _ _ _ _ V (Root i)).
      * change (NoDup (owned s' A (Thr t i))). destruct o as [j|u j|]; [|destruct (Nat.eq_dec i j) as [Ei|Ni]; [destruct (Nat.eq_dec t u) as [Et|Nt]; [subst u j; rewrite Ob; exact Nd2|]|]|congruence]; (rewrite Ow by congruence); apply (v_nodup _ _ _ _ V (Thr t i)).
      * constructor; [exact NbA|]. apply (v_nodup _ _ _ _ V User).
    + rewrite Hd. apply (v_mark _ _ _ _ V).
    + intros t i Nt. apply (v_thr _ _ _ _ V). intro E. apply Nt. destruct (tbuddy s' t i) as [|x r] eqn:Et; [reflexivity|]. exfalso.
      destruct (Sub (Thr t i) x) as [K _]; [discriminate|cbn; rewrite Et; left; reflexivity|]. cbn in K. rewrite E in K. destruct K.
    + exact Cn.
    + exact Tc.
  - intros a I. assert (Ca := v_cell _ _ _ _ V User a I). destruct Ca as [Ca _]. rewrite Hd. split; [reflexivity|]. split; [reflexivity|]. intros off Ho. rewrite Mm.
    assert (Nab : b <> a) by (intros ->; contradiction). destruct (geo_apart _ _ _ (v_geo _ _ _ _ V) b a Cb Ca Nab) as [K|K]; rewrite <- ?Ek in K.
    + assert ((a + off <? b + size k) = false) as ->; [apply Nat.ltb_ge; lia|]. rewrite andb_false_r. reflexivity.
    + assert ((b <? a + off) = false) as ->; [apply Nat.ltb_ge; lia|]. reflexivity.
Qed.

Definition after_gc (g : bool) (e : env) (s : state) (A : list nat) : list nat := if g then survivors e s A else A.
Lemma root_alloc_big_ok : forall e N s L A req, malloc_ok e -> nthr e = N -> Inv N s L A -> (forall x, live e x = true -> In x (concat L)) ->
  Forall (fun ck => size (snd ck) < fuel e) (chunks s) -> 1 <= req <= 38 ->
  match root_alloc_big e s req with
  | Ret (s', b, g) => exists L', Inv N s' L' (b :: after_gc g e s A) /\ safe_some s s' (after_gc g e s A) /\ hbix (head s' b) = req /\
                        forall off, 0 < off < size req -> mem s' (b + off) = 0
  | Hang => True | _ => False end.
Proof.
  intros e N s L A req M EN V Lv Hf Hr. unfold root_alloc_big.
  (* the first part: a list from which the cell is taken *)
  set (r := if MAXBUDDY <=? find_free s req then _ else _).
  assert (Hr1 : match r with
    | Ret (s1, k, g) => exists L1, Inv N s1 L1 (after_gc g e s A) /\ safe_some s s1 (after_gc g e s A) /\ req <= k /\ buddy s1 k <> []
    | Hang => True | _ => False end).
  { subst r. destruct (find_free_spec N s L A req V ltac:(lia)) as [F1 F2]. cbv zeta in *. destruct (Nat.leb_spec MAXBUDDY (find_free s req)) as [Hk|Hk].
    - set (r2 := if (Z.of_nat (size req) <? totalheap s / 8)%Z then _ else _).
      assert (Hr2 : match r2 with
        | Ret (s1, k, g) => exists L1, Inv N s1 L1 (after_gc g e s A) /\ safe_some s s1 (after_gc g e s A) /\ (k < MAXBUDDY -> req <= k /\ buddy s1 k <> [])
        | Hang => True | _ => False end).
      { subst r2. destruct (Z.of_nat (size req) <? totalheap s / 8)%Z.
        - destruct (gc_inv e N s L A EN V Lv Hf) as [s1 [L1 [fr [E1 [_ [V1 S1]]]]]]. rewrite E1. cbn [bind].
          assert (Fm := fill_margin_ok e N (survivors e s A) (fuel e) s1 L1 req M ltac:(lia) V1). destruct (fill_margin (fuel e) e s1 req) as [s2| | |]; cbn [bind]; auto.
          destruct Fm as [L2 [V2 [S2 _]]]. exists L2. split; [exact V2|]. split; [eapply safe_some_trans; [exact S1|apply safe_safe_some; exact S2]|].
          intro K. destruct (find_free_spec N s2 L2 (survivors e s A) req V2 ltac:(lia)) as [G1 G2]. split; [exact G1|]. apply G2. exact K.
        - cbn [after_gc]. exists L. split; [exact V|]. split; [apply safe_safe_some, safe_refl|]. intro K. lia. }
      destruct r2 as [[[s1 k] g]| | |]; cbn [bind]; auto. destruct Hr2 as [L1 [V1 [S1 K1]]].
      destruct (Nat.leb_spec MAXBUDDY k) as [Hk2|Hk2].
      + destruct (newchunk_ok e N s1 L1 (after_gc g e s A) req M V1 ltac:(lia)) as [L2 [V2 [S2 [E2 [B2 _]]]]].
        destruct (newchunk (malloc e) s1 req) as [s2 k2]. cbn [fst snd] in *. exists L2. split; [exact V2|]. split; [eapply safe_some_trans; [exact S1|apply safe_safe_some; exact S2]|]. split; [lia|exact B2].
      + exists L1. split; [exact V1|]. split; [exact S1|]. apply K1. exact Hk2.
    - cbn [after_gc]. exists L. split; [exact V|]. split; [apply safe_safe_some, safe_refl|]. split; [exact F1|]. apply F2. exact Hk. }
  destruct r as [[[s1 k] g]| | |]; cbn [bind]; auto. destruct Hr1 as [L1 [V1 [S1 [K1 B1]]]].
  destruct (split_down_ok N _ (S k) s1 L1 req k V1 ltac:(lia) B1 ltac:(lia)) as [s2 [L2 [E2 [V2 [S2 [B2 _]]]]]]. rewrite E2. cbn [bind].
  destruct (buddy s2 req) as [|b b2] eqn:Eb; [congruence|]. set (s3 := add_free _ _).
  assert (Kb : req = hbix (head s2 b)). { symmetry. apply (v_cell _ _ _ _ V2 (Root req) b). cbn. rewrite Eb. left. reflexivity. }
  destruct (give_inv N s2 L2 (after_gc g e s A) (Root req) b b2 req s3 V2) as [V3 S3]; auto.
  - discriminate.
  - intros o' N1 N2. destruct o' as [i|t i|]; cbn [owned]; [|reflexivity|reflexivity]. cbn. unfold upd. destruct (Nat.eqb_spec i req) as [->|_]; [congruence|reflexivity].
  - cbn. unfold upd. rewrite Nat.eqb_refl. reflexivity.
  - intros i Hi. cbn. unfold upd. destruct (Nat.eqb_spec i req) as [->|_]; [|apply (v_cnt _ _ _ _ V2); exact Hi]. rewrite (v_cnt _ _ _ _ V2 req Hi), Eb. cbn [length]. lia.
  - apply (v_tcnt _ _ _ _ V2).
  - exists L2. split; [exact V3|]. split; [eapply safe_some_trans; [exact S1|apply safe_safe_some; eapply safe_trans; eassumption]|]. split; [symmetry; exact Kb|].
    intros off Ho. change (mem s3 (b + off)) with (if (b <? b + off) && (b + off <? b + size req) then 0 else mem s2 (b + off)). assert ((b <? b + off) && (b + off <? b + size req) = true) as ->; [|reflexivity]. apply andb_true_iff. split; apply Nat.ltb_lt; lia.
Qed.
