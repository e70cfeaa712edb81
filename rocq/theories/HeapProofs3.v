(** Proofs about the allocator, continued: ownership of cells and allocation. *)
From Verif Require Export HeapProofs2.

(** ** Who owns a cell *)
Inductive owner := Root (i : nat) | Thr (t i : nat) | User.
Definition owned (s : state) (A : list nat) (o : owner) : list nat := match o with Root i => buddy s i | Thr t i => tbuddy s t i | User => A end.
Record Inv (N : nat) (s : state) (L : list (list nat)) (A : list nat) : Prop := {
  v_geo : geo (head s) (chunks s) L;
  v_cell : forall o x, In x (owned s A o) -> In x (concat L) /\ match o with Root i => hbix (head s x) = i | Thr _ i => hbix (head s x) = i | User => True end;
  v_uniq : forall o o' x, In x (owned s A o) -> In x (owned s A o') -> o = o';
  v_nodup : forall o, NoDup (owned s A o);
  v_mark : forall x, In x (concat L) -> hmark (head s x) = false;
  v_thr : forall t i, tbuddy s t i <> [] -> t < N /\ 1 <= i < MAXTHRBUDDY;
  v_cnt : forall i, i < 16 -> cnt s i = Z.of_nat (length (buddy s i));
  v_tcnt : forall t i, tcnt s t i = Z.of_nat (length (tbuddy s t i)) }.
(** the cells of A keep their size, flag and contents *)
Definition safe (s s' : state) (A : list nat) : Prop := forall a, In a A ->
  hbix (head s' a) = hbix (head s a) /\ hnod (head s' a) = hnod (head s a) /\ forall off, 0 < off < size (hbix (head s a)) -> mem s' (a + off) = mem s (a + off).
Lemma safe_refl : forall s A, safe s s A. Proof. intros s A a _. auto. Qed.
Lemma safe_trans : forall s1 s2 s3 A, safe s1 s2 A -> safe s2 s3 A -> safe s1 s3 A.
Proof. intros s1 s2 s3 A H1 H2 a I. destruct (H1 a I) as [E1 [E2 E3]]. destruct (H2 a I) as [F1 [F2 F3]]. rewrite F1, F2. repeat split; auto. intros off Ho. rewrite F3, E3; auto. rewrite E1. exact Ho. Qed.
Lemma safe_incl : forall s s' A B, incl B A -> safe s s' A -> safe s s' B.
Proof. intros s s' A B I H a Ia. apply H, I, Ia. Qed.

Lemma inv_free_not_user : forall N s L A o x, Inv N s L A -> In x (owned s A o) -> o <> User -> ~ In x A.
Proof. intros N s L A o x V I No J. apply No. apply (v_uniq _ _ _ _ V o User x I). exact J. Qed.
Lemma inv_root_ix : forall N s L A i x, Inv N s L A -> In x (buddy s i) -> 1 <= i <= 38.
Proof. intros N s L A i x V I. destruct (v_cell _ _ _ _ V (Root i) x I) as [I1 <-]. destruct (geo_in _ _ _ x (v_geo _ _ _ _ V) I1) as [ck [_ [_ [_ K]]]]. exact K. Qed.

(** ** newchunk *)
Definition malloc_ok (e : env) : Prop := forall s k ck, In ck (chunks s) -> disj (malloc e s k, k) ck.
Lemma newchunk_ok : forall e N s L A k, malloc_ok e -> Inv N s L A -> k <= 38 ->
  let s' := fst (newchunk (malloc e) s k) in let k' := snd (newchunk (malloc e) s k) in
  exists L', Inv N s' L' A /\ safe s s' A /\ k' = Nat.max 16 k /\ buddy s' k' <> [] /\ incl (concat L) (concat L') /\ tbuddy s' = tbuddy s /\ length (chunks s') = S (length (chunks s)).
Proof.
  intros e N s L A k M V Hk. unfold newchunk. cbv zeta. cbn [fst snd]. set (k' := if k <? DEFAULTCHUNKINDEX then DEFAULTCHUNKINDEX else k).
  assert (Ek : k' = Nat.max 16 k). { unfold k', DEFAULTCHUNKINDEX. destruct (Nat.ltb_spec k 16); lia. }
  set (a := malloc e s k'). set (h := mkHdr false true false k' false).
  assert (Fr : forall ck, In ck (chunks s) -> disj (a, k') ck) by (intros ck I; apply M; exact I).
  assert (Fx : forall x, In x (concat L) -> a + size k' <= x \/ x + size (hbix (head s x)) <= a).
  { intros x I. destruct (geo_in _ _ _ x (v_geo _ _ _ _ V) I) as [ck [I1 [B1 [B2 _]]]]. destruct (Fr ck I1) as [D|D]; cbn [fst snd] in D; lia. }
  pose proof (size_ge k') as Sk.
  assert (Na : forall x, In x (concat L) -> x <> a). { intros x I ->. destruct (Fx a I) as [K|K]; pose proof (size_ge (hbix (head s a))); lia. }
  set (s' := mkState (upd (head s) a h) (upd (buddy s) k' [a]) (upd (cnt s) k' (cnt s k' + 1)%Z) (tbuddy s) (tcnt s) ((a, k') :: chunks s) (freeheap s + Z.of_nat (size k')) (totalheap s + Z.of_nat (size k')) (upd (upd (mem s) a (hword h)) (a + 1) 0)).
  assert (Hh : forall x, x <> a -> head s' x = head s x). { intros x N1. cbn. unfold upd. apply Nat.eqb_neq in N1. rewrite N1. reflexivity. }
  assert (Ha : head s' a = h). { cbn. unfold upd. rewrite Nat.eqb_refl. reflexivity. }
  assert (Ow : forall o x, In x (owned s' A o) <-> (x = a /\ o = Root k') \/ (o <> Root k' /\ In x (owned s A o))).
  { intros o x. destruct o as [i|t i|]; cbn [owned s' buddy tbuddy].
    - unfold upd. destruct (Nat.eqb_spec i k') as [->|Ni]; cbn [In]; [split; [intros [<-|[]]; auto|intros [[-> _]|[K _]]; [auto|congruence]]|].
      split; [intro I; right; split; [congruence|exact I]|intros [[_ K]|[_ K]]; [congruence|exact K]].
    - split; [intro I; right; split; [congruence|exact I]|intros [[_ K]|[_ K]]; [congruence|exact K]].
    - split; [intro I; right; split; [congruence|exact I]|intros [[_ K]|[_ K]]; [congruence|exact K]]. }
  exists ([a] :: L). split; [|split; [|split; [exact Ek|split; [|split; [|split; [reflexivity|reflexivity]]]]]].
  - constructor.
    + constructor.
      * constructor; [apply t_leaf; rewrite ?Ha; reflexivity|]. apply (g_tiles (head s')). eapply geo_frame; [apply (v_geo _ _ _ _ V)|]. intros x I. rewrite Hh by auto. auto.
      * constructor; [|apply (g_disj _ _ _ (v_geo _ _ _ _ V))]. rewrite Forall_forall. exact Fr.
      * constructor; [cbn [snd]; lia|]. apply (g_ix _ _ _ (v_geo _ _ _ _ V)).
    + intros o x I. apply Ow in I. destruct I as [[-> ->]|[_ I]].
      * split; [left; reflexivity|]. rewrite Ha. reflexivity.
      * destruct (v_cell _ _ _ _ V o x I) as [I1 I2]. split; [right; exact I1|]. rewrite Hh by auto. exact I2.
    + intros o o' x I I'. apply Ow in I, I'. destruct I as [[-> ->]|[_ I]], I' as [[E ->]|[_ I']]; auto.
      * exfalso. apply (v_cell _ _ _ _ V) in I'. apply (Na a); tauto.
      * exfalso. subst x. apply (v_cell _ _ _ _ V) in I. apply (Na a); tauto.
      * apply (v_uniq _ _ _ _ V _ _ x I I').
    + intros o. destruct o as [i|t i|]; cbn [owned s' buddy tbuddy]; [|apply (v_nodup _ _ _ _ V (Thr t i))|apply (v_nodup _ _ _ _ V User)].
      unfold upd. destruct (Nat.eqb i k'); [repeat constructor; auto|apply (v_nodup _ _ _ _ V (Root i))].
    + intros x I. cbn in I. destruct I as [<-|I]; [rewrite Ha; reflexivity|]. rewrite Hh by auto. apply (v_mark _ _ _ _ V). exact I.
    + apply (v_thr _ _ _ _ V).
    + intros i Hi. cbn [s' cnt buddy]. unfold upd. destruct (Nat.eqb_spec i k') as [->|Ni]; [lia|]. apply (v_cnt _ _ _ _ V). exact Hi.
    + apply (v_tcnt _ _ _ _ V).
  - intros x I. apply (v_cell _ _ _ _ V User) in I. destruct I as [I _]. rewrite Hh by auto. split; [reflexivity|]. split; [reflexivity|].
    intros off Ho. cbn [s' mem]. unfold upd. destruct (Fx x I) as [K|K]; destruct (Nat.eqb_spec (x + off) (a + 1)); destruct (Nat.eqb_spec (x + off) a); try lia; reflexivity.
  - cbn [s' buddy]. unfold upd. rewrite Nat.eqb_refl. discriminate.
  - intros x I. right. exact I.
Qed.

(** ** splitheap *)
Lemma geo_split : forall H H' cs L p, geo H cs L -> In p (concat L) -> 2 <= hbix (H p) ->
  let q := p + size (hbix (H p) - 1) in
  hbix (H' p) = hbix (H p) - 1 -> hb (H' p) = false -> hm (H' p) = hb (H p) -> hbix (H' q) = rk (hbix (H p)) -> hb (H' q) = true -> hm (H' q) = hm (H p) ->
  (forall x, x <> p -> x <> q -> H' x = H x) ->
  ~ In q (concat L) /\ exists L', geo H' cs L' /\ (forall x, In x (concat L') <-> In x (concat L) \/ x = q).
Proof.
  intros H H' cs L p G Ip J q X1 X2 X3 Y1 Y2 Y3 F.
  pose proof (size_ge (hbix (H p) - 1)) as S1. pose proof (size_split (hbix (H p)) J) as S2. pose proof (size_ge (rk (hbix (H p)))) as S3.
  assert (Nq : forall x, In x (concat L) -> x <> q).
  { intros x I E. assert (Np : p <> x) by (unfold q in E; lia). destruct (geo_apart _ _ _ G p x Ip I Np) as [K|K]; [unfold q in E; lia|]. pose proof (size_ge (hbix (H x))). unfold q in E. lia. }
  split; [intro I; apply (Nq q I); reflexivity|].
  assert (ND : NoDup (concat L)) by (eapply tiles_all_NoDup; [apply (g_tiles _ _ _ G)|apply (g_disj _ _ _ G)]).
  apply in_concat in Ip. destruct Ip as [ls [Il Ip]]. apply in_split in Il as [L1 [L2 ->]]. destruct G as [T D Ix].
  apply Forall2_app_inv_r in T. destruct T as [c1 [c2' [T1 [T2 ->]]]]. inversion T2 as [|ck ? c2 ? T3 T4]; subst.
  apply in_split in Ip as [pre [post ->]].
  rewrite concat_app in ND, Nq. cbn [concat] in ND, Nq.
  assert (Fr : forall x, In x (concat L1) \/ In x (concat L2) -> H' x = H x).
  { intros x I. apply F.
    - intros ->. apply NoDup_app_parts in ND as [_ [ND1 ND2]]. destruct I as [I|I].
      + apply (ND2 p I). apply in_or_app. left. apply in_elt.
      + apply NoDup_app_parts in ND1 as [_ [_ ND3]]. apply (ND3 p); [apply in_elt|exact I].
    - apply Nq. rewrite !in_app_iff. tauto. }
  assert (Fall : forall c l, Forall2 (chunk_tiles H) c l -> (forall x, In x (concat l) -> H' x = H x) -> Forall2 (chunk_tiles H') c l).
  { intros c l K. induction K as [|ck0 l0 c l K1 K2 IHK]; intro E; [constructor|]. constructor.
    - eapply tiles_frame; [exact K1|]. intros x I. rewrite E; [auto|]. cbn. apply in_or_app. auto.
    - apply IHK. intros x I. apply E. cbn. apply in_or_app. auto. }
  exists (L1 ++ (pre ++ p :: q :: post) :: L2). split.
  - constructor; auto. apply Forall2_app; [apply Fall; auto|]. constructor; [|apply Fall; auto].
    eapply tiles_split; eauto.
  - intro x. rewrite !concat_app. cbn [concat]. rewrite !in_app_iff. cbn [In]. assert (Es : q = x <-> x = q) by (split; congruence). tauto.
Qed.

Lemma splitheap_ok : forall N s L A k, Inv N s L A -> buddy s k <> [] -> 2 <= k ->
  exists s' L', splitheap s k = Ret s' /\ Inv N s' L' A /\ safe s s' A /\ buddy s' (k - 1) <> [] /\ buddy s' (rk k) <> [] /\ incl (concat L) (concat L') /\ tbuddy s' = tbuddy s /\ chunks s' = chunks s.
Proof.
  intros N s L A k V Nb Hk. unfold splitheap. destruct (buddy s k) as [|b1 bnext] eqn:Eb; [congruence|]. clear Nb. cbv zeta.
  set (b2 := b1 + size (k - 1)).
  assert (I1 : In b1 (owned s A (Root k))) by (cbn; rewrite Eb; left; reflexivity).
  destruct (v_cell _ _ _ _ V _ _ I1) as [Ic Ek]. cbn beta iota in Ek.
  pose proof (size_ge (k - 1)) as S1. pose proof (size_split k Hk) as S2. pose proof (size_ge (rk k)) as S3.
  match goal with |- exists s0 L', Ret ?X = Ret s0 /\ _ => set (s' := X) end.
  assert (Nb : b2 <> b1) by (unfold b2; lia).
  assert (Hd : head s' = upd (upd (head s) b2 (mkHdr false true (hm (head s b1)) (rk k) false)) b1 (mkHdr (hmark (head s b1)) false (hb (head s b1)) (k - 1) false)).
  { unfold s', rk. destruct (Nat.eqb k 2); reflexivity. }
  assert (H1 : head s' b1 = mkHdr (hmark (head s b1)) false (hb (head s b1)) (k - 1) false). { rewrite Hd. unfold upd. rewrite Nat.eqb_refl. reflexivity. }
  assert (H2 : head s' b2 = mkHdr false true (hm (head s b1)) (rk k) false). { rewrite Hd. unfold upd. rewrite (proj2 (Nat.eqb_neq b2 b1) Nb), Nat.eqb_refl. reflexivity. }
  assert (H3 : forall x, x <> b1 -> x <> b2 -> head s' x = head s x). { intros x N1 N2. rewrite Hd. unfold upd. apply Nat.eqb_neq in N1, N2. rewrite N1, N2. reflexivity. }
  assert (Ch : chunks s' = chunks s) by (unfold s'; destruct (Nat.eqb k 2); reflexivity).
  assert (Tb : tbuddy s' = tbuddy s) by (unfold s'; destruct (Nat.eqb k 2); reflexivity).
  assert (Tc : tcnt s' = tcnt s) by (unfold s'; destruct (Nat.eqb k 2); reflexivity).
  assert (Mm : forall y, y <> b1 -> y <> b1 + 1 -> y <> b2 -> y <> b2 + 1 -> mem s' y = mem s y).
  { intros y Y1 Y2 Y3 Y4. apply Nat.eqb_neq in Y1, Y2, Y3, Y4. unfold s'. destruct (Nat.eqb k 2); cbn; unfold upd; fold b2; rewrite Y1, Y2, Y3, Y4; reflexivity. }
  (* the lists *)
  assert (Bd : forall i, buddy s' i = if Nat.eqb i k then bnext else if Nat.eqb k 2 then (if Nat.eqb i 1 then b1 :: b2 :: buddy s i else buddy s i)
                       else if Nat.eqb i (k - 1) then b1 :: buddy s i else if Nat.eqb i (k - 2) then b2 :: buddy s i else buddy s i).
  { intro i. unfold s'. destruct (Nat.eqb_spec k 2) as [->|N2]; cbn [buddy set_head set_next set_buddy]; unfold upd; fold b2.
    - change (2 - 1) with 1. destruct (Nat.eqb_spec i 1) as [->|N1]; [reflexivity|]. destruct (Nat.eqb i 2); reflexivity.
    - destruct (Nat.eqb_spec i (k - 2)) as [->|N1].
      + replace (k - 2 =? k) with false by (symmetry; apply Nat.eqb_neq; lia). replace (k - 2 =? k - 1) with false by (symmetry; apply Nat.eqb_neq; lia). reflexivity.
      + destruct (Nat.eqb_spec i (k - 1)) as [->|N3].
        * replace (k - 1 =? k) with false by (symmetry; apply Nat.eqb_neq; lia). reflexivity.
        * reflexivity. }
  assert (Cn : forall i, i < 16 -> cnt s' i = Z.of_nat (length (buddy s' i))).
  { intros i Hi. rewrite Bd. assert (Vc := v_cnt _ _ _ _ V). unfold s'. destruct (Nat.eqb_spec k 2) as [->|N2]; cbn [cnt set_head set_next set_buddy]; unfold upd.
    - change (2 - 1) with 1. destruct (Nat.eqb_spec i 1) as [->|N1]; [cbn [Nat.eqb length]; rewrite Vc by lia; lia|].
      destruct (Nat.eqb_spec i 2) as [->|N3]; [rewrite Vc by lia; rewrite Eb; cbn [length]; lia|apply Vc; exact Hi].
    - destruct (Nat.eqb_spec i (k - 2)) as [->|N1].
      + replace (k - 2 =? k) with false by (symmetry; apply Nat.eqb_neq; lia). replace (k - 2 =? k - 1) with false by (symmetry; apply Nat.eqb_neq; lia).
        cbn [length]. rewrite Vc by lia. lia.
      + destruct (Nat.eqb_spec i (k - 1)) as [->|N3].
        * replace (k - 1 =? k) with false by (symmetry; apply Nat.eqb_neq; lia). cbn [length]. rewrite Vc by lia. lia.
        * destruct (Nat.eqb_spec i k) as [->|N4]; [rewrite Vc by lia; rewrite Eb; cbn [length]; lia|apply Vc; exact Hi]. }
  clearbody s'.
  assert (Gs := geo_split (head s) (head s') (chunks s) L b1 (v_geo _ _ _ _ V) Ic). cbv zeta in Gs. rewrite Ek in Gs. fold b2 in Gs. specialize (Gs Hk).
  rewrite H1, H2 in Gs. specialize (Gs eq_refl eq_refl eq_refl eq_refl eq_refl eq_refl H3). destruct Gs as [Nq [L' [G' Cl]]].
  assert (NDk := v_nodup _ _ _ _ V (Root k)). cbn [owned] in NDk. rewrite Eb in NDk. apply NoDup_cons_iff in NDk. destruct NDk as [ND1 ND2].
  assert (U1 : forall o, In b1 (owned s A o) -> o = Root k) by (intros o I; apply (v_uniq _ _ _ _ V _ _ b1 I I1)).
  assert (U2 : forall o, ~ In b2 (owned s A o)) by (intros o I; apply (v_cell _ _ _ _ V) in I; tauto).
  assert (Ow : forall o x, In x (owned s' A o) -> (x = b1 /\ o = Root (k - 1)) \/ (x = b2 /\ o = Root (rk k)) \/ (x <> b1 /\ x <> b2 /\ In x (owned s A o))).
  { intros o x I. destruct (Nat.eq_dec x b1) as [->|X1]; [|destruct (Nat.eq_dec x b2) as [->|X2]].
    - left. split; [reflexivity|]. destruct o as [i|t i|]; cbn [owned] in I.
      + rewrite Bd in I. destruct (Nat.eqb_spec i k) as [Ei|Ni]; [contradiction|]. f_equal. destruct (Nat.eqb_spec k 2) as [Q|Q].
        * destruct (Nat.eqb_spec i 1) as [Ei|N1]; [lia|]. exfalso. apply Ni. assert (Z := U1 (Root i) I). congruence.
        * destruct (Nat.eqb_spec i (k - 1)) as [Ei|N1]; [exact Ei|]. exfalso. apply Ni. destruct (Nat.eqb_spec i (k - 2)) as [Ei|N3].
          -- destruct I as [I|I]; [congruence|]. assert (Z := U1 (Root i) I). congruence.
          -- assert (Z := U1 (Root i) I). congruence.
      + rewrite Tb in I. exfalso. assert (Z := U1 (Thr t i) I). discriminate Z.
      + exfalso. assert (Z := U1 User I). discriminate Z.
    - right. left. split; [reflexivity|]. destruct o as [i|t i|]; cbn [owned] in I.
      + rewrite Bd in I. unfold rk. destruct (Nat.eqb_spec i k) as [Ei|Ni]; [exfalso; apply (U2 (Root k)); cbn; rewrite Eb; right; exact I|]. f_equal.
        destruct (Nat.eqb_spec k 2) as [Q|Q].
        * destruct (Nat.eqb_spec i 1) as [Ei|N1]; [exact Ei|]. exfalso. apply (U2 (Root i) I).
        * destruct (Nat.eqb_spec i (k - 1)) as [Ei|N1]; [exfalso; destruct I as [I|I]; [congruence|apply (U2 (Root i) I)]|].
          destruct (Nat.eqb_spec i (k - 2)) as [Ei|N3]; [exact Ei|]. exfalso. apply (U2 (Root i) I).
      + exfalso. rewrite Tb in I. apply (U2 (Thr t i) I).
      + exfalso. apply (U2 User I).
    - right. right. split; [exact X1|]. split; [exact X2|]. destruct o as [i|t i|]; cbn [owned] in *; [|rewrite Tb in I; exact I|exact I].
      rewrite Bd in I. destruct (Nat.eqb_spec i k) as [Ei|Ni]; [rewrite Ei, Eb; right; exact I|].
      destruct (Nat.eqb k 2).
      + destruct (Nat.eqb i 1); [|exact I]. destruct I as [I|[I|I]]; [congruence|congruence|exact I].
      + destruct (Nat.eqb i (k - 1)); [destruct I as [I|I]; [congruence|exact I]|]. destruct (Nat.eqb i (k - 2)); [destruct I as [I|I]; [congruence|exact I]|exact I]. }
  assert (Hns : forall x, In x (concat L) -> x <> b2) by (intros x I ->; contradiction).
  exists s', L'. split; [reflexivity|]. split; [|split; [|split; [|split; [|split; [|split; [exact Tb|exact Ch]]]]]].
  - constructor.
    + rewrite Ch. exact G'.
    + intros o x I. apply Ow in I. rewrite Cl. destruct I as [[-> ->]|[[-> ->]|[X1 [X2 I]]]].
      * split; [left; exact Ic|]. rewrite H1. reflexivity.
      * split; [right; reflexivity|]. rewrite H2. reflexivity.
      * destruct (v_cell _ _ _ _ V o x I) as [J1 J2]. split; [left; exact J1|]. rewrite H3 by assumption. exact J2.
    + intros o o' x I I'. apply Ow in I, I'. destruct I as [[E1 F1]|[[E1 F1]|[X1 [X2 I]]]], I' as [[E2 F2]|[[E2 F2]|[Y1 [Y2 I']]]]; try congruence.
      apply (v_uniq _ _ _ _ V _ _ x I I').
    + intros o. assert (NDo := v_nodup _ _ _ _ V o). destruct o as [i|t i|]; cbn [owned] in *; [|rewrite Tb; exact NDo|exact NDo].
      rewrite Bd. destruct (Nat.eqb_spec i k) as [->|Ni]; [exact ND2|].
      assert (Q1 : ~ In b1 (buddy s i)). { intro I. apply Ni. assert (Z := U1 (Root i) I). congruence. }
      assert (Q2 : ~ In b2 (buddy s i)) by apply (U2 (Root i)).
      destruct (Nat.eqb k 2).
      * destruct (Nat.eqb i 1); [|exact NDo]. constructor; [|constructor; assumption]. intros [E|E]; [congruence|contradiction].
      * destruct (Nat.eqb i (k - 1)); [constructor; assumption|]. destruct (Nat.eqb i (k - 2)); [constructor; assumption|exact NDo].
    + intros x I. apply Cl in I. destruct I as [I| ->]; [|rewrite H2; reflexivity]. destruct (Nat.eq_dec x b1) as [->|X1]; [rewrite H1; cbn; apply (v_mark _ _ _ _ V); exact I|].
      rewrite H3 by auto. apply (v_mark _ _ _ _ V). exact I.
    + rewrite Tb. apply (v_thr _ _ _ _ V).
    + exact Cn.
    + rewrite Tb, Tc. apply (v_tcnt _ _ _ _ V).
  - intros x I. assert (J := v_cell _ _ _ _ V User x I). destruct J as [J _].
    assert (X1 : x <> b1). { intros ->. assert (Z := U1 User I). discriminate Z. }
    rewrite H3 by auto. split; [reflexivity|]. split; [reflexivity|]. intros off Ho. assert (X1' : b1 <> x) by congruence.
    assert (Ap := geo_apart _ _ _ (v_geo _ _ _ _ V) b1 x Ic J X1'). rewrite Ek in Ap. apply Mm; unfold b2; lia.
  - rewrite Bd. replace (k - 1 =? k) with false by (symmetry; apply Nat.eqb_neq; lia). destruct (Nat.eqb_spec k 2) as [Q|Q].
    + replace (k - 1 =? 1) with true by (symmetry; apply Nat.eqb_eq; lia). discriminate.
    + rewrite Nat.eqb_refl. discriminate.
  - rewrite Bd. unfold rk. destruct (Nat.eqb_spec k 2) as [Q|Q].
    + replace (1 =? k) with false by (symmetry; apply Nat.eqb_neq; lia). cbn. discriminate.
    + replace (k - 2 =? k) with false by (symmetry; apply Nat.eqb_neq; lia). replace (k - 2 =? k - 1) with false by (symmetry; apply Nat.eqb_neq; lia). rewrite Nat.eqb_refl. discriminate.
  - intros x I. apply Cl. left. exact I.
Qed.
