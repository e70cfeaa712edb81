(** Proofs about the allocator, continued: small cells and histories. *)
From Verif Require Export HeapProofs4.

Lemma collect_ok : forall e N A i k, malloc_ok e -> nthr e = N -> 1 <= i < MAXTHRBUDDY -> forall f s L col, Inv N s L A ->
  (col = false -> (forall x, live e x = true -> In x (concat L)) /\ Forall (fun ck => size (snd ck) < fuel e) (chunks s)) ->
  match collect f e s i k col with
  | Ret (Some s', _) => exists L', Inv N s' L' A /\ safe s s' A /\ incl (concat L) (concat L') /\ tbuddy s' = tbuddy s /\ (k <= cnt s' i)%Z /\ (col = false -> chunks s' = chunks s)
  | Ret (None, s') => col = false /\ exists L', Inv N s' L' (survivors e s A) /\ safe_some s s' (survivors e s A)
  | Hang => True | _ => False end.
Proof.
  intros e N A i k M EN Hi. induction f as [|f IH]; intros s L col V Hf; cbn [collect]; [exact Logic.I|].
  destruct (Z.ltb_spec (cnt s i) k) as [Lt|Ge].
  2:{ exists L. split; [exact V|]. split; [apply safe_refl|]. split; [apply incl_refl|]. auto. }
  cbv zeta. set (j := find_free s (S i)). destruct (find_free_spec N s L A (S i) V ltac:(unfold MAXTHRBUDDY in *; lia)) as [F1 F2]. cbv zeta in *. fold j in F1, F2.
  destruct (Nat.leb_spec MAXBUDDY j) as [Hj|Hj]; cbn [andb].
  - destruct col; cbn [negb].
    + (* already collected: new chunks *)
      assert (Fm := fill_margin_ok e N A (fuel e) s L DEFAULTCHUNKINDEX M ltac:(unfold DEFAULTCHUNKINDEX; lia) V).
      destruct (fill_margin (fuel e) e s DEFAULTCHUNKINDEX) as [s1| | |]; cbn [bind]; auto. destruct Fm as [L1 [V1 [S1 [I1 [T1 [C1 D1]]]]]].
      set (j1 := if length (chunks s1) =? length (chunks s) then j else DEFAULTCHUNKINDEX).
      assert (Hn : exists s2 j2 L2, (if MAXBUDDY <=? j1 then newchunk (malloc e) s1 DEFAULTCHUNKINDEX else (s1, j1)) = (s2, j2) /\ Inv N s2 L2 A /\ safe s s2 A /\ incl (concat L) (concat L2) /\ tbuddy s2 = tbuddy s /\ 2 <= j2 /\ buddy s2 j2 <> []).
      { destruct D1 as [->|[D1 D2]].
        - unfold j1. rewrite Nat.eqb_refl. rewrite (proj2 (Nat.leb_le MAXBUDDY j) Hj).
          destruct (newchunk_ok e N s L A DEFAULTCHUNKINDEX M V ltac:(unfold DEFAULTCHUNKINDEX; lia)) as [L2 [V2 [S2 [E2 [B2 [I2 [T2 _]]]]]]].
          destruct (newchunk (malloc e) s DEFAULTCHUNKINDEX) as [s2 j2]. cbn [fst snd] in *. exists s2, j2, L2. split; [reflexivity|]. split; [exact V2|]. split; [exact S2|]. split; [exact I2|]. split; [exact T2|]. split; [lia|exact B2].
        - unfold j1. replace (length (chunks s1) =? length (chunks s)) with false by (symmetry; apply Nat.eqb_neq; lia).
          replace (MAXBUDDY <=? DEFAULTCHUNKINDEX) with false by reflexivity. exists s1, DEFAULTCHUNKINDEX, L1. split; [reflexivity|]. split; [exact V1|]. split; [exact S1|]. split; [exact I1|]. split; [exact T1|]. split; [unfold DEFAULTCHUNKINDEX; lia|exact D2]. }
      destruct Hn as [s2 [j2 [L2 [E2 [V2 [S2 [I2 [T2 [H2 B2]]]]]]]]]. rewrite E2.
      destruct (splitheap_ok N s2 L2 A j2 V2 B2 H2) as [s3 [L3 [E3 [V3 [S3 [_ [_ [I3 [T3 C3]]]]]]]]]. rewrite E3. cbn [bind].
      specialize (IH s3 L3 true V3). destruct (collect f e s3 i k true) as [[[s4|] s5]| | |]; auto.
      * destruct IH as [L4 [V4 [S4 [I4 [T4 [K4 C4]]]]]]; [discriminate|].
        exists L4. split; [exact V4|]. split; [eapply safe_trans; [exact S2|eapply safe_trans; eassumption]|]. split; [eapply incl_tran; [exact I2|eapply incl_tran; eassumption]|]. split; [congruence|]. split; [exact K4|discriminate].
      * destruct IH as [K _]; [discriminate|discriminate K].
      * apply IH; discriminate.
      * apply IH; discriminate.
    + (* a collection *)
      destruct (gc_inv e N s L A EN V (proj1 (Hf eq_refl)) (proj2 (Hf eq_refl))) as [s1 [L1 [fr [E1 [_ [V1 S1]]]]]]. rewrite E1. cbn [bind]. split; [reflexivity|]. exists L1. split; [exact V1|exact S1].
  - cbn [bind]. replace (MAXBUDDY <=? j) with false by (symmetry; apply Nat.leb_gt; exact Hj).
    destruct (F2 Hj) as [B2 _]. destruct (splitheap_ok N s L A j V B2 ltac:(lia)) as [s3 [L3 [E3 [V3 [S3 [_ [_ [I3 [T3 C3]]]]]]]]]. rewrite E3. cbn [bind].
    specialize (IH s3 L3 col V3). destruct (collect f e s3 i k col) as [[[s4|] s5]| | |]; auto.
    + destruct IH as [L4 [V4 [S4 [I4 [T4 [K4 C4]]]]]]; [intro Q; rewrite C3; destruct (Hf Q) as [Lv Hf1]; split; [intros x Hx; apply I3, Lv; exact Hx|exact Hf1]|].
      exists L4. split; [exact V4|]. split; [eapply safe_trans; eassumption|]. split; [eapply incl_tran; eassumption|]. split; [congruence|]. split; [exact K4|]. intro Q. rewrite C4 by exact Q. exact C3.
    + destruct IH as [K [L4 [V4 S4]]]; [intro Q; rewrite C3; destruct (Hf Q) as [Lv Hf1]; split; [intros x Hx; apply I3, Lv; exact Hx|exact Hf1]|]. split; [exact K|].
      rewrite (survivors_ext e s s3 A S3) in *. exists L4. split; [exact V4|]. eapply safe_some_trans; [|exact S4]. apply safe_safe_some. eapply safe_incl; [apply survivors_incl|exact S3].
    + apply IH; intro Q; rewrite C3; destruct (Hf Q) as [Lv Hf1]; split; [intros x Hx; apply I3, Lv; exact Hx|exact Hf1].
    + apply IH; intro Q; rewrite C3; destruct (Hf Q) as [Lv Hf1]; split; [intros x Hx; apply I3, Lv; exact Hx|exact Hf1].
Qed.

(** moving the first cells of a root list to the list of a thread *)
Lemma last_in : forall (l : list nat) d, l <> [] -> In (last l d) l.
Proof. induction l as [|x [|y l] IH]; intros d H; [congruence|left; reflexivity|]. right. apply IH. discriminate. Qed.
Lemma move_inv : forall N s L A t i taken rest z1 z2 z3, Inv N s L A -> t < N -> 1 <= i < MAXTHRBUDDY -> buddy s i = taken ++ rest -> taken <> [] ->
  z1 = Z.of_nat (length taken + length (tbuddy s t i)) -> z2 = Z.of_nat (length rest) ->
  let s' := add_free (set_buddy (set_tbuddy (set_next s (last taken 0) (tbuddy s t i)) t i (taken ++ tbuddy s t i) z1) i rest z2) z3 in
  Inv N s' L A /\ safe s s' A.
Proof.
  intros N s L A t i taken rest z1 z2 z3 V Ht Hi Eb Nt E1 E2 s'.
  assert (Hd : head s' = head s) by reflexivity.
  assert (Ow : forall o x, In x (owned s' A o) <-> (o = Thr t i /\ In x taken) \/ (o = Root i /\ In x rest) \/ (o <> Root i /\ In x (owned s A o))).
  { intros o x. destruct o as [j|u j|]; cbn [owned].
    - change (buddy s' j) with (if Nat.eqb j i then rest else buddy s j). destruct (Nat.eqb_spec j i) as [Ej|Nj].
      + split; [intro I; right; left; split; [congruence|exact I]|intros [[K _]|[[_ I]|[K _]]]; [discriminate|exact I|congruence]].
      + split; [intro I; right; right; split; [congruence|exact I]|intros [[K _]|[[K _]|[_ I]]]; [discriminate|congruence|exact I]].
    - change (tbuddy s' u j) with (if Nat.eqb u t && Nat.eqb j i then taken ++ tbuddy s t i else tbuddy s u j).
      destruct (Nat.eqb_spec u t) as [Eu|Nu]; cbn [andb]; [destruct (Nat.eqb_spec j i) as [Ej|Nj]|].
      + rewrite in_app_iff. split; [intros [I|I]; [left; split; [congruence|exact I]|right; right; split; [discriminate|congruence]]|].
        intros [[_ I]|[[K _]|[_ I]]]; [auto|discriminate|right; congruence].
      + split; [intro I; right; right; split; [discriminate|exact I]|intros [[K _]|[[K _]|[_ I]]]; [congruence|discriminate|exact I]].
      + split; [intro I; right; right; split; [discriminate|exact I]|intros [[K _]|[[K _]|[_ I]]]; [congruence|discriminate|exact I]].
    - split; [intro I; right; right; split; [discriminate|exact I]|intros [[K _]|[[K _]|[_ I]]]; [discriminate|discriminate|exact I]]. }
  assert (Rt : forall x, In x taken \/ In x rest -> In x (owned s A (Root i))). { intros x I. cbn. rewrite Eb. apply in_or_app. exact I. }
  assert (Nd := v_nodup _ _ _ _ V (Root i)). cbn [owned] in Nd. rewrite Eb in Nd. apply NoDup_app_parts in Nd. destruct Nd as [Nd1 [Nd2 Nd3]].
  assert (Lt := last_in taken 0 Nt).
  split.
  - constructor.
    + apply (v_geo _ _ _ _ V).
    + intros o x I. apply Ow in I. rewrite Hd. destruct I as [[-> I]|[[-> I]|[_ I]]].
      * destruct (v_cell _ _ _ _ V (Root i) x (Rt x (or_introl I))). auto.
      * destruct (v_cell _ _ _ _ V (Root i) x (Rt x (or_intror I))). auto.
      * apply (v_cell _ _ _ _ V o x I).
    + assert (Q : forall o x, o <> Root i -> In x (owned s A o) -> ~ In x taken /\ ~ In x rest).
      { intros o x No I. split; intro J; apply No; apply (v_uniq _ _ _ _ V o (Root i) x I); apply Rt; auto. }
      intros o o' x I I'. apply Ow in I, I'. destruct I as [[E I]|[[E I]|[E I]]], I' as [[E' I']|[[E' I']|[E' I']]]; try congruence.
      * exfalso. apply (Nd3 x I I').
      * exfalso. destruct (Q o' x E' I'). contradiction.
      * exfalso. apply (Nd3 x I' I).
      * exfalso. destruct (Q o' x E' I'). contradiction.
      * exfalso. destruct (Q o x E I). contradiction.
      * exfalso. destruct (Q o x E I). contradiction.
      * apply (v_uniq _ _ _ _ V _ _ x I I').
    + intros o. assert (Ndo := v_nodup _ _ _ _ V o). destruct o as [j|u j|]; cbn [owned] in *; [| |exact Ndo].
      * change (buddy s' j) with (if Nat.eqb j i then rest else buddy s j). destruct (Nat.eqb j i); assumption.
      * change (tbuddy s' u j) with (if Nat.eqb u t && Nat.eqb j i then taken ++ tbuddy s t i else tbuddy s u j).
        destruct (Nat.eqb u t && Nat.eqb j i); [|exact Ndo]. apply NoDup_app_make; [exact Nd1|apply (v_nodup _ _ _ _ V (Thr t i))|].
        intros x I J. assert (K := v_uniq _ _ _ _ V (Root i) (Thr t i) x (Rt x (or_introl I)) J). discriminate K.
    + apply (v_mark _ _ _ _ V).
    + intros u j. change (tbuddy s' u j) with (if Nat.eqb u t && Nat.eqb j i then taken ++ tbuddy s t i else tbuddy s u j).
      destruct (Nat.eqb_spec u t) as [->|Nu]; cbn [andb]; [destruct (Nat.eqb_spec j i) as [->|Nj]|]; [auto|apply (v_thr _ _ _ _ V)|apply (v_thr _ _ _ _ V)].
    + intros j Hj. change (cnt s' j) with (if Nat.eqb j i then z2 else cnt s j). change (buddy s' j) with (if Nat.eqb j i then rest else buddy s j).
      destruct (Nat.eqb j i); [exact E2|apply (v_cnt _ _ _ _ V); exact Hj].
    + intros u j. change (tcnt s' u j) with (if Nat.eqb u t && Nat.eqb j i then z1 else tcnt s u j).
      change (tbuddy s' u j) with (if Nat.eqb u t && Nat.eqb j i then taken ++ tbuddy s t i else tbuddy s u j).
      destruct (Nat.eqb u t && Nat.eqb j i); [rewrite app_length; exact E1|apply (v_tcnt _ _ _ _ V)].
  - intros a I. rewrite Hd. split; [reflexivity|]. split; [reflexivity|]. intros off Ho.
    change (mem s' (a + off)) with (if Nat.eqb (a + off) (last taken 0 + 1) then 8 * hd 0 (tbuddy s t i) else mem s (a + off)).
    destruct (Nat.eqb_spec (a + off) (last taken 0 + 1)) as [Q|Q]; [|reflexivity]. exfalso.
    assert (Ca := v_cell _ _ _ _ V User a I). destruct Ca as [Ca _]. assert (Cl := v_cell _ _ _ _ V (Root i) _ (Rt _ (or_introl Lt))). destruct Cl as [Cl _].
    assert (Na : last taken 0 <> a). { intro Z. assert (K := v_uniq _ _ _ _ V (Root i) User a). rewrite <- Z in K at 1. specialize (K (Rt _ (or_introl Lt)) I). discriminate K. }
    pose proof (size_ge (hbix (head s (last taken 0)))). destruct (geo_apart _ _ _ (v_geo _ _ _ _ V) _ _ Cl Ca Na) as [K|K]; lia.
Qed.

Lemma after_gc_incl : forall g e s A, incl (after_gc g e s A) A.
Proof. intros [|] e s A; [apply survivors_incl|apply incl_refl]. Qed.
Lemma refill_ok : forall e N t, malloc_ok e -> nthr e = N -> t < N -> forall f s L A i col, Inv N s L A -> 1 <= i <= MAXTHRBUDDY ->
  (col = false -> (forall x, live e x = true -> In x (concat L)) /\ Forall (fun ck => size (snd ck) < fuel e) (chunks s)) ->
  match refill f e t s i col with
  | Ret (s', g) => exists L', (col = true -> g = true) /\ Inv N s' L' (after_gc (g && negb col) e s A) /\ safe_some s s' (after_gc (g && negb col) e s A) /\
                     (forall j, i <= j < MAXTHRBUDDY -> tbuddy s' t j <> []) /\ (forall j, 1 <= j < i -> tbuddy s t j <> [] -> tbuddy s' t j <> [])
  | Hang => True | _ => False end.
Proof.
  intros e N t M EN Ht. induction f as [|f IH]; intros s L A i col V Hi Hf; cbn [refill]; [exact Logic.I|].
  destruct (Nat.ltb_spec i MAXTHRBUDDY) as [Lt|Ge].
  2:{ exists L. split; [auto|]. replace (col && negb col) with false by (destruct col; reflexivity). cbn [after_gc]. split; [exact V|]. split; [apply safe_safe_some, safe_refl|]. split; [intros j Hj; lia|auto]. }
  cbv zeta. set (k := (Z.of_nat (buddyfill i) - tcnt s t i)%Z).
  assert (Bf : 0 < buddyfill i). { unfold buddyfill, MAXTHRBUDDY in *. destruct i as [|[|[|[|[|[|i]]]]]]; cbn; lia. }
  assert (Cc := collect_ok e N A i k M EN ltac:(lia) (fuel e) s L col V Hf).
  destruct (collect (fuel e) e s i k col) as [[[s1|] s2]| | |]; cbn [bind]; auto.
  - destruct Cc as [L1 [V1 [S1 [I1 [T1 [K1 C1]]]]]].
    assert (Hf1 : forall s3, chunks s3 = chunks s1 -> col = false -> (forall x, live e x = true -> In x (concat L1)) /\ Forall (fun ck => size (snd ck) < fuel e) (chunks s3)).
    { intros s3 E3 Q. destruct (Hf Q) as [Lv Hf2]. split; [intros x Hx; apply I1, Lv; exact Hx|]. rewrite E3, (C1 Q). exact Hf2. }
    (* common end: the loop goes on from a state s3 where list i of the thread is not empty *)
    assert (Fin : forall s3, Inv N s3 L1 A -> safe s1 s3 A -> chunks s3 = chunks s1 -> tbuddy s3 t i <> [] -> (forall j, j <> i -> tbuddy s3 t j = tbuddy s1 t j) ->
      match refill f e t s3 (S i) col with
      | Ret (s', g) => exists L', (col = true -> g = true) /\ Inv N s' L' (after_gc (g && negb col) e s A) /\ safe_some s s' (after_gc (g && negb col) e s A) /\
                     (forall j, i <= j < MAXTHRBUDDY -> tbuddy s' t j <> []) /\ (forall j, 1 <= j < i -> tbuddy s t j <> [] -> tbuddy s' t j <> [])
      | Hang => True | _ => False end).
    { intros s3 V3 S3 C3 N3 T3. specialize (IH s3 L1 A (S i) col V3 ltac:(lia) (Hf1 s3 C3)). destruct (refill f e t s3 (S i) col) as [[s' g]| | |]; auto.
      destruct IH as [L' [G' [V' [S' [A' B']]]]]. assert (S13 : safe s s3 A) by (eapply safe_trans; eassumption).
      assert (Es : after_gc (g && negb col) e s3 A = after_gc (g && negb col) e s A) by (destruct (g && negb col); [apply survivors_ext; exact S13|reflexivity]).
      rewrite Es in *. exists L'. split; [exact G'|]. split; [exact V'|]. split; [eapply safe_some_trans; [|exact S']; apply safe_safe_some; eapply safe_incl; [apply after_gc_incl|exact S13]|].
      split.
      - intros j Hj. destruct (Nat.eq_dec j i) as [Ej|Nj]; [subst j; apply B'; [lia|exact N3]|apply A'; lia].
      - intros j Hj Nj. apply B'; [lia|]. rewrite T3, T1 by lia. exact Nj. }
    destruct (Z.ltb_spec 0 k) as [Kp|Kn].
    + unfold take_cells. assert (Ck : cnt s1 i = Z.of_nat (length (buddy s1 i))) by (apply (v_cnt _ _ _ _ V1); unfold MAXTHRBUDDY in *; lia).
      assert (Hlen : Z.to_nat k <= length (buddy s1 i)) by lia. rewrite (proj2 (Nat.leb_le _ _) Hlen). cbn [bind].
      set (taken := firstn (Z.to_nat k) (buddy s1 i)). set (rest := skipn (Z.to_nat k) (buddy s1 i)).
      assert (Lk : length taken = Z.to_nat k) by (unfold taken; apply firstn_length_le; exact Hlen).
      assert (Nt : taken <> []) by (intro Q; rewrite Q in Lk; cbn in Lk; lia).
      assert (Tt : tcnt s t i = Z.of_nat (length (tbuddy s t i))) by apply (v_tcnt _ _ _ _ V).
      assert (Eb : buddy s1 i = taken ++ rest) by (symmetry; apply firstn_skipn).
      assert (Lr : length rest = length (buddy s1 i) - Z.to_nat k) by (unfold rest; apply skipn_length).
      cbn [tbuddy set_next].
      destruct (move_inv N s1 L1 A t i taken rest (Z.of_nat (buddyfill i)) (cnt s1 i - k)%Z (- (Z.of_nat (size i) * k))%Z V1 Ht ltac:(unfold MAXTHRBUDDY in *; lia) Eb Nt) as [V3 S3].
      * rewrite T1. unfold k in *. lia.
      * rewrite Lr, Ck. lia.
      * apply Fin; auto.
        -- cbn. unfold upd2. rewrite !Nat.eqb_refl. cbn. intro Q. apply app_eq_nil in Q. destruct Q. contradiction.
        -- intros j Nj. cbn. unfold upd2. apply Nat.eqb_neq in Nj. rewrite Nj, andb_false_r. reflexivity.
    + apply Fin; auto.
      * apply safe_refl.
      * rewrite T1. intro Q. assert (Tt : tcnt s t i = Z.of_nat (length (tbuddy s t i))) by apply (v_tcnt _ _ _ _ V). rewrite Q in Tt. cbn in Tt. unfold k in *. lia.
  - destruct Cc as [Q [L1 [V1 S1]]]. subst col. specialize (IH s2 L1 (survivors e s A) 1 true V1 ltac:(unfold MAXTHRBUDDY; lia) ltac:(discriminate)).
    destruct (refill f e t s2 1 true) as [[s' g]| | |]; auto. destruct IH as [L' [G' [V' [S' [A' B']]]]]. rewrite (G' eq_refl) in *. cbn [negb andb after_gc] in *.
    exists L'. split; [discriminate|]. split; [exact V'|]. split; [eapply safe_some_trans; eassumption|]. split; [intros j Hj; apply A'; lia|intros j Hj _; apply A'; lia].
Qed.

(** ** gc_alloc *)
Lemma index_for_spec : forall n ss req, let k := index_for n ss req in req <= k <= req + n /\ (k < req + n -> ss <= size k) /\ (forall m, req <= m <= req + n -> ss <= size m -> k <= m).
Proof.
  induction n as [|n IH]; intros ss req; cbn [index_for]; cbv zeta; [split; [lia|split; [lia|intros; lia]]|].
  destruct (Nat.ltb_spec (size req) ss) as [Lt|Ge].
  - destruct (IH ss (S req)) as [A1 [A2 A3]]. cbv zeta in *. split; [lia|]. split; [intro K; apply A2; lia|]. intros m Hm Sm. apply A3; [|exact Sm]. assert (m <> req) by (intros ->; lia). lia.
  - split; [lia|]. split; [auto|]. intros; lia.
Qed.
Lemma set_nod_inv : forall N s L A b v, Inv N s L (b :: A) -> let h := head s b in let s' := set_head s b (mkHdr (hmark h) (hb h) (hm h) (hbix h) v) in
  Inv N s' L (b :: A) /\ safe_some s s' A /\ safe s s' A.
Proof.
  intros N s L A b v V h s'.
  assert (Q : forall x, hbix (head s' x) = hbix (head s x) /\ hb (head s' x) = hb (head s x) /\ hm (head s' x) = hm (head s x) /\ hmark (head s' x) = hmark (head s x)).
  { intro x. destruct (Nat.eq_dec x b) as [->|Nx]; [unfold s'; rewrite set_head_same; auto|unfold s'; rewrite set_head_other by exact Nx; auto]. }
  assert (Sf : safe s s' A).
  { intros a I. assert (Nd := v_nodup _ _ _ _ V User). cbn in Nd. apply NoDup_cons_iff in Nd. destruct Nd as [Nd _]. assert (Na : a <> b) by (intros ->; contradiction).
    unfold s'. rewrite set_head_other by exact Na. split; [reflexivity|]. split; [reflexivity|]. intros off Ho. cbn. unfold upd. destruct (Nat.eqb_spec (a + off) b) as [E|_]; [|reflexivity]. exfalso.
    assert (Ca := v_cell _ _ _ _ V User a (or_intror I)). assert (Cb := v_cell _ _ _ _ V User b (or_introl eq_refl)). destruct (geo_apart _ _ _ (v_geo _ _ _ _ V) a b (proj1 Ca) (proj1 Cb) Na) as [K|K]; [lia|].
    pose proof (size_ge (hbix (head s b))). lia. }
  split; [|split; [apply safe_safe_some; exact Sf|exact Sf]]. destruct V as [V1 V2 V3 V4 V5 V6 V7 V8]. constructor; auto.
  - eapply geo_frame; [exact V1|]. intros x _. destruct (Q x) as [? [? [? ?]]]. auto.
  - intros o x I. destruct (Q x) as [-> _]. apply (V2 o x). destruct o; exact I.
  - intros x I. destruct (Q x) as [_ [_ [_ ->]]]. apply V5. exact I.
Qed.

Lemma gc_alloc_ok : forall e N t s L A n, malloc_ok e -> nthr e = N -> t < N -> Inv N s L A -> (forall x, live e x = true -> In x (concat L)) ->
  Forall (fun ck => size (snd ck) < fuel e) (chunks s) -> n + 1 <= size 38 ->
  match gc_alloc e t s n with
  | Ret (s', b, g) => exists L', Inv N s' L' (b :: after_gc g e s A) /\ safe_some s s' (after_gc g e s A) /\ n + 1 <= size (hbix (head s' b)) /\ hnod (head s' b) = false /\
                        forall off, 0 < off < size (hbix (head s' b)) -> mem s' (b + off) = 0
  | Hang => True | _ => False end.
Proof.
  intros e N t s L A n M EN Ht V Lv Hf Hn. unfold gc_alloc. cbv zeta. set (ss := Nat.max 3 (n + 1)). set (req := index_for MAXBUDDY ss 1).
  destruct (index_for_spec MAXBUDDY ss 1) as [Q1 [Q2 Q3]]. cbv zeta in *. fold req in Q1, Q2, Q3.
  clearbody req.
  assert (Hr : 1 <= req <= 38). { split; [lia|]. apply Q3; [unfold MAXBUDDY; lia|]. unfold ss. pose proof (size_ge 38). lia. }
  assert (Hs : n + 1 <= size req). { assert (ss <= size req) by (apply Q2; unfold MAXBUDDY; lia). unfold ss in *. lia. }
  replace (MAXBUDDY <=? req) with false by (symmetry; apply Nat.leb_gt; unfold MAXBUDDY; lia).
  set (r := if MAXTHRBUDDY <=? req then _ else _).
  assert (Hr1 : match r with
    | Ret (s1, b, g) => exists L', Inv N s1 L' (b :: after_gc g e s A) /\ safe_some s s1 (after_gc g e s A) /\ hbix (head s1 b) = req /\ forall off, 0 < off < size req -> mem s1 (b + off) = 0
    | Hang => True | _ => False end).
  { subst r. destruct (Nat.leb_spec MAXTHRBUDDY req) as [Hb|Hb]; [apply (root_alloc_big_ok e N s L A req M EN V Lv Hf Hr)|].
    set (q := if (tcnt s t req =? 0)%Z then _ else _).
    assert (Hq : match q with
      | Ret (s1, g) => exists L', Inv N s1 L' (after_gc g e s A) /\ safe_some s s1 (after_gc g e s A) /\ tbuddy s1 t req <> []
      | Hang => True | _ => False end).
    { subst q. destruct (Z.eqb_spec (tcnt s t req) 0) as [Z0|Z0].
      - unfold root_alloc_small. assert (R := refill_ok e N t M EN Ht (fuel e) s L A 1 false V ltac:(unfold MAXTHRBUDDY; lia) ltac:(auto)).
        destruct (refill (fuel e) e t s 1 false) as [[s1 g]| | |]; auto. destruct R as [L' [_ [V' [S' [A' _]]]]]. rewrite andb_true_r in *. exists L'. split; [exact V'|]. split; [exact S'|]. apply A'. lia.
      - exists L. split; [exact V|]. split; [apply safe_safe_some, safe_refl|]. intro Q. rewrite (v_tcnt _ _ _ _ V), Q in Z0. apply Z0. reflexivity. }
    destruct q as [[s1 g]| | |]; cbn [bind]; auto. destruct Hq as [L1 [V1 [S1 N1]]]. destruct (tbuddy s1 t req) as [|b rest] eqn:Et; [congruence|].
    assert (Kb : req = hbix (head s1 b)). { symmetry. apply (v_cell _ _ _ _ V1 (Thr t req) b). cbn [owned]. rewrite Et. left. reflexivity. }
    set (s2 := set_tbuddy _ _ _ _ _).
    destruct (give_inv N s1 L1 (after_gc g e s A) (Thr t req) b rest req s2 V1) as [V3 S3]; auto.
    - discriminate.
    - intros o' P1 P2. destruct o' as [i|u i|]; cbn [owned]; [reflexivity| |reflexivity]. cbn. unfold upd2. destruct (Nat.eqb_spec u t) as [Eu|_]; [|reflexivity]. destruct (Nat.eqb_spec i req) as [Ei|_]; [subst u i; congruence|reflexivity].
    - cbn. unfold upd2. rewrite !Nat.eqb_refl. reflexivity.
    - apply (v_cnt _ _ _ _ V1).
    - intros u i. cbn. unfold upd2. destruct (Nat.eqb_spec u t) as [Eu|_]; [|apply (v_tcnt _ _ _ _ V1)]. destruct (Nat.eqb_spec i req) as [Ei|_]; [|apply (v_tcnt _ _ _ _ V1)].
      cbn [andb].
      rewrite (v_tcnt _ _ _ _ V1), Et. cbn [length]. lia.
    - exists L1. split; [exact V3|]. split; [eapply safe_some_trans; [exact S1|apply safe_safe_some; exact S3]|]. split; [symmetry; exact Kb|].
      intros off Ho. change (mem s2 (b + off)) with (if (b <? b + off) && (b + off <? b + size req) then 0 else mem s1 (b + off)).
      assert ((b <? b + off) && (b + off <? b + size req) = true) as ->; [|reflexivity]. apply andb_true_iff. split; apply Nat.ltb_lt; lia. }
  destruct r as [[[s1 b] g]| | |]; cbn [bind]; auto. destruct Hr1 as [L1 [V1 [S1 [K1 Z1]]]].
  destruct (set_nod_inv N s1 L1 (after_gc g e s A) b false V1) as [V2 [S2 _]]. cbv zeta in *. set (s2 := set_head _ _ _) in *.
  exists L1. split; [exact V2|]. split; [eapply safe_some_trans; eassumption|]. assert (Hb2 : head s2 b = mkHdr (hmark (head s1 b)) (hb (head s1 b)) (hm (head s1 b)) (hbix (head s1 b)) false) by apply set_head_same.
  rewrite Hb2. cbn [hbix hnod]. rewrite K1. split; [exact Hs|]. split; [reflexivity|]. intros off Ho. unfold s2. cbn. unfold upd. destruct (Nat.eqb_spec (b + off) b); [lia|]. apply Z1. exact Ho.
Qed.
