(** copy-object: copyobj builds an isomorphic copy and leaves a trail by which copyunmark undoes its marks. *)
From Verif Require Export CopyModel.
From Coq Require Import Permutation.

(** number of slots holding pointers *)
Definition nptrs (C : classes) (o : obj) : nat :=
  match etype o with FIXED => objsize C (cix o) | POINTER => vsize o | _ => 0 end.

Definition leaf (C : classes) (h : nat -> obj) (a : nat) : bool := is_leaf C (cix (h a)).

(** objects reachable from a word without going through symbols and classes *)
Inductive reach (C : classes) (h : nat -> obj) (w : word) : nat -> Prop :=
| reach_here : forall a, w = WPtr a -> leaf C h a = false -> reach C h w a
| reach_slot : forall a i b, reach C h w a -> i < nptrs C (h a) -> iv (h a) i = WPtr b -> leaf C h b = false ->
                             reach C h w b.

Definition valid (n : nat) (w : word) : Prop :=
  match w with WNum _ => True | WPtr a => a < n | WNull => False end.

(** what copy-object needs: no NULL in a slot, and a second slot in objects, a first element in pointer vectors *)
Definition copyable (C : classes) (h : nat -> obj) (n : nat) (w : word) : Prop :=
  valid n w /\
  (forall a, reach C h w a ->
     (forall i, i < nptrs C (h a) -> valid n (iv (h a) i)) /\
     match etype (h a) with FIXED => 2 <= objsize C (cix (h a)) | POINTER => 1 <= vsize (h a) | _ => True end).

Definition same_hdr (o o' : obj) : Prop := cix o = cix o' /\ etype o = etype o' /\ vsize o = vsize o'.

Lemma same_hdr_nwords C o o' : same_hdr o o' -> nwords C o = nwords C o'.
Proof. intros (A & B & D); unfold nwords; rewrite A, B, D; reflexivity. Qed.
Lemma same_hdr_nptrs C o o' : same_hdr o o' -> nptrs C o = nptrs C o'.
Proof. intros (A & B & D); unfold nptrs; rewrite A, B, D; reflexivity. Qed.

Lemma upd_same {A} (f : nat -> A) i x : upd f i x i = x.
Proof. unfold upd; rewrite Nat.eqb_refl; reflexivity. Qed.
Lemma upd_other {A} (f : nat -> A) i j x : j <> i -> upd f i x j = f j.
Proof. intros N; unfold upd; destruct (Nat.eqb_spec j i); [contradiction|reflexivity]. Qed.

Lemma nth_error_app_l {A} (l r : list A) j x : nth_error l j = Some x -> nth_error (l ++ r) j = Some x.
Proof.
  intros H. rewrite nth_error_app1; [exact H|]. apply nth_error_Some. rewrite H; discriminate.
Qed.
Lemma nth_error_lt {A} (l : list A) j x : nth_error l j = Some x -> j < length l.
Proof. intros H; apply nth_error_Some; rewrite H; discriminate. Qed.

Lemma NoDup_app_cons_snoc (l : list nat) a : NoDup l -> ~ In a l -> NoDup (l ++ [a]).
Proof.
  intros H N. apply (Permutation.Permutation_NoDup (l := a :: l)).
  - apply Permutation.Permutation_cons_append.
  - constructor; assumption.
Qed.

Section Copy.
  Variables (C : classes) (limit : nat) (h0 : nat -> obj) (n0 : nat) (w0 : word).
  Hypothesis OK : copyable C h0 n0 w0.

  Definition img (vs : list nat) (w w' : word) : Prop :=
    match w with
    | WPtr a => if leaf C h0 a then w' = w else exists j, nth_error vs j = Some a /\ w' = WPtr (n0 + j)
    | _ => w' = w
    end.

  Record inv0 (st : state) (vs : list nat) : Prop := {
    i_len : length (cpv st) = 2 * length vs;
    i_cpv : forall j v, nth_error vs j = Some v ->
            nth_error (cpv st) (2 * j) = Some (WPtr (n0 + j)) /\
            nth_error (cpv st) (2 * j + 1) = Some (iv (h0 v) (fpos (etype (h0 v))));
    i_nd : NoDup vs;
    i_vs : forall v, In v vs -> v < n0 /\ reach C h0 w0 v;
    i_pm : forall a, pm st a = true <-> In a vs;
    i_hdr : forall a, a < n0 -> same_hdr (heap st a) (h0 a);
    i_oth : forall a i, a < n0 -> i <> fpos (etype (h0 a)) -> iv (heap st a) i = iv (h0 a) i;
    i_un : forall a i, a < n0 -> ~ In a vs -> iv (heap st a) i = iv (h0 a) i;
    i_fwd : forall j v, nth_error vs j = Some v ->
            iv (heap st v) (fpos (etype (h0 v))) = WNum (Z.of_nat (2 * j));
    i_clone : forall j v, nth_error vs j = Some v -> same_hdr (heap st (n0 + j)) (h0 v);
    i_tree : forall j v, nth_error vs j = Some v ->
             w0 = WPtr v \/ exists k u i, k < j /\ nth_error vs k = Some u /\ i < nptrs C (h0 u) /\ iv (h0 u) i = WPtr v }.

  Definition inv (st : state) (vs : list nat) : Prop := inv0 st vs /\ next st = n0 + length vs.

  Definition complete (st : state) (vs : list nat) (j : nat) : Prop :=
    forall v, nth_error vs j = Some v ->
    forall i, i < nwords C (h0 v) ->
    if i <? nptrs C (h0 v) then img vs (iv (h0 v) i) (iv (heap st (n0 + j)) i)
    else iv (heap st (n0 + j)) i = iv (h0 v) i.

  (** a word met during the traversal *)
  Definition src (vs : list nat) (w : word) : Prop :=
    w = w0 \/ exists u i, In u vs /\ i < nptrs C (h0 u) /\ w = iv (h0 u) i.

  Lemma reach_nonleaf v : reach C h0 w0 v -> leaf C h0 v = false.
  Proof. intros H; inversion H; assumption. Qed.

  Lemma src_valid vs w : (forall v, In v vs -> v < n0 /\ reach C h0 w0 v) -> src vs w -> valid n0 w.
  Proof.
    intros R [-> | (u & i & Hu & Hi & ->)]; [exact (proj1 OK)|].
    exact (proj1 (proj2 OK u (proj2 (R u Hu))) i Hi).
  Qed.

  Lemma src_reach vs a : (forall v, In v vs -> v < n0 /\ reach C h0 w0 v) -> src vs (WPtr a) ->
    leaf C h0 a = false -> reach C h0 w0 a.
  Proof.
    intros R [E | (u & i & Hu & Hi & E)] L.
    - apply reach_here; [symmetry; exact E|exact L].
    - exact (reach_slot C h0 w0 u i a (proj2 (R u Hu)) Hi (eq_sym E) L).
  Qed.

  Lemma src_app vs new w : src vs w -> src (vs ++ new) w.
  Proof.
    intros [->|(u & i & Hu & Hi & ->)]; [left; reflexivity|].
    right; exists u, i; repeat split; auto. apply in_or_app; auto.
  Qed.

  Lemma img_app vs new w w' : img vs w w' -> img (vs ++ new) w w'.
  Proof.
    unfold img. destruct w as [z|a|]; auto. destruct (leaf C h0 a); auto.
    intros (j & Hj & E). exists j; split; auto. apply nth_error_app_l; auto.
  Qed.

  Lemma complete_app st vs new j : j < length vs -> complete st vs j -> complete st (vs ++ new) j.
  Proof.
    intros Lj K v Hv i Hi. rewrite nth_error_app1 in Hv by exact Lj. specialize (K v Hv i Hi).
    destruct (i <? nptrs C (h0 v)); auto. apply img_app; auto.
  Qed.

  Lemma complete_heap st st' vs j : heap st' (n0 + j) = heap st (n0 + j) -> complete st vs j -> complete st' vs j.
  Proof. intros E K v Hv i Hi. rewrite E. exact (K v Hv i Hi). Qed.

  (** stores into a clone *)
  Lemma inv0_put st vs k i w : inv0 st vs -> k < length vs -> inv0 (put st (n0 + k) i w) vs.
  Proof.
    intros I Lk.
    assert (LT : forall a, a < n0 -> a <> n0 + k) by (intros; lia).
    assert (VS : forall j v, nth_error vs j = Some v -> v < n0).
    { intros j v Hv. apply nth_error_In in Hv. exact (proj1 (i_vs _ _ I v Hv)). }
    constructor; try (destruct I; assumption); unfold put; cbn [heap].
    - intros a La. rewrite upd_other by auto. exact (i_hdr _ _ I a La).
    - intros a m La. rewrite upd_other by auto. exact (i_oth _ _ I a m La).
    - intros a m La. rewrite upd_other by auto. exact (i_un _ _ I a m La).
    - intros j v Hv. rewrite upd_other by eauto. exact (i_fwd _ _ I j v Hv).
    - intros j v Hv. destruct (Nat.eq_dec j k) as [->|N].
      + rewrite upd_same. exact (i_clone _ _ I k v Hv).
      + rewrite upd_other by lia. exact (i_clone _ _ I j v Hv).
  Qed.
  Lemma inv_put st vs k i w : inv st vs -> k < length vs -> inv (put st (n0 + k) i w) vs.
  Proof. intros [I N] L; split; [apply inv0_put; auto|exact N]. Qed.

  Lemma put_same st a i w : iv (heap (put st a i w) a) i = w.
  Proof. unfold put; cbn [heap]. rewrite upd_same. unfold set_iv; cbn [iv]. apply upd_same. Qed.
  Lemma put_slot st a i j w : j <> i -> iv (heap (put st a i w) a) j = iv (heap st a) j.
  Proof. intros N; unfold put; cbn [heap]. rewrite upd_same. unfold set_iv; cbn [iv]. apply upd_other; auto. Qed.
  Lemma put_other st a b i w : b <> a -> heap (put st a i w) b = heap st b.
  Proof. intros N; unfold put; cbn [heap]. apply upd_other; auto. Qed.

  (** the specification of a traversal step *)
  Definition good (st : state) (vs : list nat) (w : word) (r : res) : Prop :=
    match r with
    | Done st' w' => exists new,
        inv st' (vs ++ new) /\ img (vs ++ new) w w' /\
        (forall j, length vs <= j < length (vs ++ new) -> complete st' (vs ++ new) j) /\
        (forall j, j < length vs -> heap st' (n0 + j) = heap st (n0 + j))
    | TooBig st' => exists new, inv0 st' (vs ++ new) /\ limit < 2 * n0
    | _ => False
    end.

  Definition good_slots (st : state) (vs : list nat) (k a i n : nat) (r : res) : Prop :=
    match r with
    | Done st' w' => w' = WPtr (n0 + k) /\ exists new,
        inv st' (vs ++ new) /\
        (forall m, i <= m < i + n -> img (vs ++ new) (iv (h0 a) m) (iv (heap st' (n0 + k)) m)) /\
        (forall m, m < i \/ i + n <= m -> iv (heap st' (n0 + k)) m = iv (heap st (n0 + k)) m) /\
        (forall j, length vs <= j < length (vs ++ new) -> complete st' (vs ++ new) j) /\
        (forall j, j < length vs -> j <> k -> heap st' (n0 + j) = heap st (n0 + j))
    | TooBig st' => exists new, inv0 st' (vs ++ new) /\ limit < 2 * n0
    | _ => False
    end.

  Lemma copy_slots_ok cp (B : nat)
    (CP : forall st vs w, inv st vs -> src vs w -> B <= length vs -> good st vs w (cp st w)) :
    forall n st vs k a i, inv st vs -> nth_error vs k = Some a -> B <= length vs ->
      i + n <= nptrs C (h0 a) -> fpos (etype (h0 a)) < i ->
      good_slots st vs k a i n (copy_slots cp st a (n0 + k) i n).
  Proof.
    induction n as [|n IH]; intros st vs k a i I Hk HB Hn Hf; cbn [copy_slots].
    - split; [reflexivity|]. exists []. rewrite app_nil_r. split; [exact I|]. split; [intros m Hm; lia|].
      split; [reflexivity|]. split; [intros j Hj; lia|reflexivity].
    - assert (Lk := nth_error_lt _ _ _ Hk).
      assert (Ha : a < n0 /\ reach C h0 w0 a) by (apply (i_vs _ _ (proj1 I)), (nth_error_In _ _ Hk)).
      rewrite (i_oth _ _ (proj1 I) a i) by lia.
      assert (S0 : src vs (iv (h0 a) i)).
      { right; exists a, i; repeat split; auto; [exact (nth_error_In _ _ Hk)|lia]. }
      specialize (CP st vs _ I S0 HB). destruct (cp st (iv (h0 a) i)) as [st1 w1|st1| |]; cbn [good] in CP; auto.
      destruct CP as (new & I1 & G1 & K1 & U1).
      assert (Lk1 : k < length (vs ++ new)) by (rewrite app_length; lia).
      assert (I2 := inv_put st1 _ k i w1 I1 Lk1).
      specialize (IH (put st1 (n0 + k) i w1) (vs ++ new) k a (S i) I2 (nth_error_app_l _ _ _ _ Hk)).
      assert (HB' : B <= length (vs ++ new)) by (rewrite app_length; lia).
      specialize (IH HB' ltac:(lia) ltac:(lia)).
      destruct (copy_slots cp (put st1 (n0 + k) i w1) a (n0 + k) (S i) n) as [st' w'|st'| |]; cbn [good_slots] in *; auto.
      + destruct IH as (Ew & new2 & I3 & G3 & U3 & K3 & O3). split; [exact Ew|]. exists (new ++ new2).
        rewrite app_assoc. split; [exact I3|]. split; [|split; [|split]].
        * intros m Hm. destruct (Nat.eq_dec m i) as [->|N].
          -- rewrite U3 by lia. rewrite put_same. apply img_app; exact G1.
          -- apply G3; lia.
        * intros m Hm. rewrite U3 by lia. rewrite put_slot by lia. rewrite U1 by exact Lk. reflexivity.
        * intros j Hj. rewrite app_length in *. destruct (Nat.lt_ge_cases j (length vs + length new)) as [L|L].
          -- assert (Lj : j < length (vs ++ new)) by (rewrite app_length; lia).
             apply complete_app; [exact Lj|]. apply (complete_heap st1).
             ++ rewrite O3 by lia. apply put_other; lia.
             ++ apply K1. lia.
          -- apply K3. rewrite app_length; lia.
        * intros j Hj Nk. rewrite O3 by (rewrite ?app_length; lia). rewrite put_other by lia. apply U1; exact Hj.
      + destruct IH as (new2 & I3). exists (new ++ new2). rewrite app_assoc; exact I3.
  Qed.

  Lemma copy_raw_hdr n : forall st a c i, a <> c ->
    (forall b, b <> c -> heap (copy_raw st a c i n) b = heap st b) /\
    same_hdr (heap (copy_raw st a c i n) c) (heap st c) /\
    pm (copy_raw st a c i n) = pm st /\ next (copy_raw st a c i n) = next st /\ cpv (copy_raw st a c i n) = cpv st /\
    (forall m, i <= m < i + n -> iv (heap (copy_raw st a c i n) c) m = iv (heap st a) m) /\
    (forall m, m < i \/ i + n <= m -> iv (heap (copy_raw st a c i n) c) m = iv (heap st c) m).
  Proof.
    induction n as [|n IH]; intros st a c i N; cbn [copy_raw].
    - repeat split; auto. intros m Hm; lia.
    - destruct (IH (put st c i (iv (heap st a) i)) a c (S i) N) as (A & B & D & E & F & G & H).
      split; [|split; [|split; [|split; [|split; [|split]]]]].
      + intros b Nb. rewrite A by exact Nb. apply put_other; exact Nb.
      + destruct B as (B1 & B2 & B3). unfold put in B1, B2, B3; cbn [heap] in B1, B2, B3.
        rewrite upd_same in B1, B2, B3. split; [|split]; assumption.
      + exact D.
      + exact E.
      + exact F.
      + intros m Hm. destruct (Nat.eq_dec m i) as [->|Ni].
        * rewrite H by lia. apply put_same.
        * rewrite G by lia. rewrite put_other by exact N. reflexivity.
      + intros m Hm. rewrite H by lia. apply put_slot; lia.
  Qed.

  Lemma inv0_raw st vs k a i n : inv0 st vs -> a < n0 -> k < length vs -> inv0 (copy_raw st a (n0 + k) i n) vs.
  Proof.
    revert st i. induction n as [|n IH]; intros st i I La Lk; cbn [copy_raw]; auto.
    apply IH; auto. apply inv0_put; auto.
  Qed.

  Definition visit (st : state) (a : nat) : state :=
    let o := heap st a in
    let p := alloc C (set_mark st a true) o in
    let st1 := put (fst p) a (fpos (etype o)) (WNum (Z.of_nat (length (cpv st)))) in
    mkSt (heap st1) (pm st1) (next st1) (cpv st1 ++ [WPtr (snd p); iv o (fpos (etype o))]).

  Lemma visit_heap st a b : heap (visit st a) b =
    if b =? a then set_iv (if a =? next st then blank C (heap st a) else heap st a) (fpos (etype (heap st a)))
                          (WNum (Z.of_nat (length (cpv st))))
    else if b =? next st then blank C (heap st a) else heap st b.
  Proof. unfold visit, alloc, set_mark, put; cbn [fst snd heap next]. unfold upd. destruct (b =? a); reflexivity. Qed.

  Lemma visit_inv st vs a : inv st vs -> a < n0 -> leaf C h0 a = false -> src vs (WPtr a) -> ~ In a vs ->
    inv (visit st a) (vs ++ [a]) /\ (forall j, j < length vs -> heap (visit st a) (n0 + j) = heap st (n0 + j)).
  Proof.
    intros [I N] La Lf S Na.
    assert (R := src_reach vs a (i_vs _ _ I) S Lf).
    assert (Ne : a <> next st) by lia.
    assert (HA : forall b, b <> a -> b <> next st -> heap (visit st a) b = heap st b).
    { intros b N1 N2. rewrite visit_heap. destruct (Nat.eqb_spec b a); [contradiction|].
      destruct (Nat.eqb_spec b (next st)); [contradiction|reflexivity]. }
    assert (HB : heap (visit st a) a = set_iv (heap st a) (fpos (etype (heap st a))) (WNum (Z.of_nat (length (cpv st))))).
    { rewrite visit_heap. rewrite Nat.eqb_refl. destruct (Nat.eqb_spec a (next st)); [contradiction|reflexivity]. }
    assert (HC : heap (visit st a) (next st) = blank C (heap st a)).
    { rewrite visit_heap. destruct (Nat.eqb_spec (next st) a); [congruence|]. rewrite Nat.eqb_refl; reflexivity. }
    destruct (i_hdr _ _ I a La) as (E1 & E2 & E3).
    assert (Lt : forall b, b < n0 -> b <> next st) by (intros; lia).
    assert (NE : forall j v, nth_error (vs ++ [a]) j = Some v -> nth_error vs j = Some v \/ j = length vs /\ v = a).
    { intros j v H. destruct (Nat.lt_ge_cases j (length vs)) as [L|L].
      - left. rewrite nth_error_app1 in H by exact L. exact H.
      - right. rewrite nth_error_app2 in H by exact L. destruct (j - length vs) as [|d] eqn:D; cbn in H.
        + injection H as H; split; [lia|congruence].
        + destruct d; discriminate. }
    assert (VA : forall j v, nth_error vs j = Some v -> v <> a /\ v < n0).
    { intros j v H. apply nth_error_In in H. split; [intros ->; contradiction|exact (proj1 (i_vs _ _ I v H))]. }
    split.
    - split; [constructor|].
      + unfold visit, alloc, put, set_mark; cbn [cpv fst]. rewrite !app_length, (i_len _ _ I). cbn [length]; lia.
      + intros j v H. unfold visit, alloc, put, set_mark; cbn [cpv fst snd next].
        destruct (NE j v H) as [H1|[-> ->]].
        * destruct (i_cpv _ _ I j v H1) as [A B]. split; apply nth_error_app_l; assumption.
        * split.
          -- rewrite nth_error_app2 by (rewrite (i_len _ _ I); lia). rewrite (i_len _ _ I), Nat.sub_diag.
             cbn [nth_error]. rewrite N; reflexivity.
          -- rewrite nth_error_app2 by (rewrite (i_len _ _ I); lia). rewrite (i_len _ _ I).
             replace (2 * length vs + 1 - 2 * length vs) with 1 by lia. cbn [nth_error].
             rewrite E2. rewrite (i_un _ _ I a _ La Na). reflexivity.
      + apply NoDup_app_cons_snoc.
        * exact (i_nd _ _ I).
        * exact Na.
      + intros v Hv. apply in_app_or in Hv. destruct Hv as [Hv|[<-|[]]]; [exact (i_vs _ _ I v Hv)|split; auto].
      + intros b. unfold visit, alloc, put, set_mark; cbn [pm fst]. unfold upd.
        destruct (Nat.eqb_spec b a) as [->|Nb].
        * split; auto. intros _. apply in_or_app; right; left; reflexivity.
        * rewrite (i_pm _ _ I b). rewrite in_app_iff. cbn [In]. intuition congruence.
      + intros b Lb. destruct (Nat.eq_dec b a) as [->|Nb].
        * rewrite HB. unfold same_hdr, set_iv; cbn [cix etype vsize]. auto.
        * rewrite HA by auto. exact (i_hdr _ _ I b Lb).
      + intros b i Lb Hi. destruct (Nat.eq_dec b a) as [->|Nb].
        * rewrite HB. unfold set_iv; cbn [iv]. rewrite upd_other by (rewrite E2; exact Hi). apply (i_oth _ _ I); auto.
        * rewrite HA by auto. apply (i_oth _ _ I); auto.
      + intros b i Lb Nb. rewrite in_app_iff in Nb. cbn [In] in Nb.
        rewrite HA by (auto; intros ->; apply Nb; auto). apply (i_un _ _ I); auto.
      + intros j v H. destruct (NE j v H) as [H1|[-> ->]].
        * destruct (VA j v H1) as [V1 V2]. rewrite HA by auto. exact (i_fwd _ _ I j v H1).
        * rewrite HB. unfold set_iv; cbn [iv]. rewrite E2, upd_same, (i_len _ _ I). reflexivity.
      + intros j v H. destruct (NE j v H) as [H1|[-> ->]].
        * assert (Lj := nth_error_lt _ _ _ H1). rewrite HA by lia. exact (i_clone _ _ I j v H1).
        * rewrite <- N, HC. unfold same_hdr, blank; cbn [cix etype vsize]. auto.
      + intros j v H. destruct (NE j v H) as [H1|[-> ->]].
        * destruct (i_tree _ _ I j v H1) as [T|(k & u & i & Lk & Hu & Hi & T)]; [left; exact T|].
          right; exists k, u, i. repeat split; auto. apply nth_error_app_l; exact Hu.
        * destruct S as [S|(u & i & Hu & Hi & S)]; [left; congruence|].
          apply In_nth_error in Hu. destruct Hu as [k Hk]. right; exists k, u, i.
          split; [exact (nth_error_lt _ _ _ Hk)|]. split; [apply nth_error_app_l; exact Hk|]. split; [exact Hi|congruence].
      + unfold visit, alloc, put, set_mark; cbn [next fst]. rewrite app_length; cbn [length]. lia.
    - intros j Hj. apply HA; lia.
  Qed.

  Lemma toobig_inv st vs a : inv st vs -> a < n0 -> ~ In a vs ->
    inv0 (set_mark (fst (alloc C (set_mark st a true) (heap st a))) a false) vs.
  Proof.
    intros [I N] La Na. unfold alloc, set_mark; cbn [fst heap pm next cpv].
    assert (VS : forall j v, nth_error vs j = Some v -> v < n0).
    { intros j v H. apply nth_error_In in H. exact (proj1 (i_vs _ _ I v H)). }
    constructor; cbn [heap pm next cpv]; try (destruct I; assumption).
    - intros b. unfold upd. destruct (Nat.eqb_spec b a) as [->|Nb].
      + split; [discriminate|contradiction].
      + apply (i_pm _ _ I).
    - intros b Lb. rewrite upd_other by lia. exact (i_hdr _ _ I b Lb).
    - intros b i Lb. rewrite upd_other by lia. exact (i_oth _ _ I b i Lb).
    - intros b i Lb. rewrite upd_other by lia. exact (i_un _ _ I b i Lb).
    - intros j v H. specialize (VS j v H). rewrite upd_other by lia. exact (i_fwd _ _ I j v H).
    - intros j v H. assert (L := nth_error_lt _ _ _ H). rewrite upd_other by lia. exact (i_clone _ _ I j v H).
  Qed.

  Lemma vs_bound st vs : inv0 st vs -> length vs <= n0.
  Proof.
    intros I. rewrite <- (seq_length n0 0). apply NoDup_incl_length; [exact (i_nd _ _ I)|].
    intros v Hv. apply in_seq. destruct (i_vs _ _ I v Hv); lia.
  Qed.

  (** the object just visited, once all its words are copied *)
  Lemma finish_visit st vs a new st' :
    inv st' ((vs ++ [a]) ++ new) ->
    leaf C h0 a = false ->
    complete st' ((vs ++ [a]) ++ new) (length vs) ->
    (forall j, S (length vs) <= j < length ((vs ++ [a]) ++ new) -> complete st' ((vs ++ [a]) ++ new) j) ->
    (forall j, j < length vs -> heap st' (n0 + j) = heap st (n0 + j)) ->
    good st vs (WPtr a) (Done st' (WPtr (n0 + length vs))).
  Proof.
    intros I L K0 K1 U. exists (a :: new).
    replace (vs ++ a :: new) with ((vs ++ [a]) ++ new) by (rewrite <- app_assoc; reflexivity).
    split; [exact I|]. split; [|split; [|exact U]].
    - unfold img. rewrite L. exists (length vs); split; [|reflexivity].
      rewrite <- app_assoc. rewrite nth_error_app2 by lia. rewrite Nat.sub_diag; reflexivity.
    - intros j Hj. destruct (Nat.eq_dec j (length vs)) as [->|N]; [exact K0|apply K1; lia].
  Qed.

  Lemma copyobj_ok : forall f st vs w, inv st vs -> src vs w -> n0 + 1 <= f + length vs ->
    good st vs w (copyobj f C limit st w).
  Proof.
    induction f as [|f IH]; intros st vs w I Sr F.
    - pose proof (vs_bound _ _ (proj1 I)); lia.
    - assert (V := src_valid vs w (i_vs _ _ (proj1 I)) Sr).
      assert (NOTHING : forall w', img vs w w' -> good st vs w (Done st w')).
      { intros w' G. exists []. rewrite app_nil_r. split; [exact I|]. split; [exact G|].
        split; [intros j Hj; lia|reflexivity]. }
      cbn [copyobj]. destruct w as [z|a|]; [apply NOTHING; reflexivity| |contradiction].
      cbn [valid] in V. destruct (i_hdr _ _ (proj1 I) a V) as (E1 & E2 & E3). rewrite E1.
      change (is_leaf C (cix (h0 a))) with (leaf C h0 a).
      destruct (leaf C h0 a) eqn:L; [apply NOTHING; unfold img; rewrite L; reflexivity|].
      destruct (pm st a) eqn:P.
      + apply (i_pm _ _ (proj1 I)) in P. apply In_nth_error in P. destruct P as [j Hj].
        rewrite E2, (i_fwd _ _ (proj1 I) j a Hj), Nat2Z.id. rewrite (proj1 (i_cpv _ _ (proj1 I) j a Hj)).
        apply NOTHING. unfold img. rewrite L. exists j; auto.
      + assert (Na : ~ In a vs).
        { intros H. apply (i_pm _ _ (proj1 I)) in H. congruence. }
        destruct (limit <? length (cpv st)) eqn:LB.
        { exists []. rewrite app_nil_r. split; [apply toobig_inv; auto|].
          apply Nat.ltb_lt in LB. rewrite (i_len _ _ (proj1 I)) in LB.
          pose proof (vs_bound _ _ (proj1 I)); lia. }
        fold (visit st a).
        destruct (visit_inv st vs a I V L Sr Na) as [I2 U2].
        assert (R := src_reach vs a (i_vs _ _ (proj1 I)) Sr L).
        destruct (proj2 OK a R) as [SV SZ].
        assert (Ec : snd (alloc C (set_mark st a true) (heap st a)) = n0 + length vs) by exact (proj2 I).
        rewrite Ec. assert (Ew : nwords C (heap st a) = nwords C (h0 a)).
        { apply same_hdr_nwords. split; [|split]; assumption. }
        rewrite Ew. rewrite E2. rewrite (i_un _ _ (proj1 I) a _ V Na).
        assert (Hk : nth_error (vs ++ [a]) (length vs) = Some a).
        { rewrite nth_error_app2 by lia. rewrite Nat.sub_diag; reflexivity. }
        assert (L2 : length (vs ++ [a]) = S (length vs)) by (rewrite app_length; cbn [length]; lia).
        assert (F2 : forall vs' : list nat, S (length vs) <= length vs' -> n0 + 1 <= f + length vs') by (intros; lia).
        assert (CP : forall st (vs' : list nat) w, inv st vs' -> src vs' w -> S (length vs) <= length vs' ->
                       good st vs' w (copyobj f C limit st w)).
        { intros. apply IH; auto. }
        destruct (etype (h0 a)) eqn:ET.
        2-6: cbn [fpos].
        7: cbn [fpos]. 1: cbn [fpos].
        2-6: (assert (I3 := inv_put (visit st a) _ (length vs) 0 (iv (h0 a) 0) I2 ltac:(lia));
              set (st3 := put (visit st a) (n0 + length vs) 0 (iv (h0 a) 0)) in *;
              assert (NE : a <> n0 + length vs) by lia;
              destruct (copy_raw_hdr (nwords C (h0 a) - 1) st3 a (n0 + length vs) 1 NE) as (R1 & R2 & R3 & R4 & R5 & R6 & R7);
              apply (finish_visit st vs a []); rewrite ?app_nil_r;
              [split; [apply inv0_raw; [exact (proj1 I3)|exact V|lia]|rewrite R4; exact (proj2 I3)]
              |exact L
              |intros v Hv i Hi; assert (v = a) by congruence; subst v;
               unfold nptrs; rewrite ET; change (i <? 0) with false; cbv iota;
               destruct (Nat.eq_dec i 0) as [Zi|Ni];
               [subst i; rewrite R7 by lia; apply put_same
               |rewrite R6 by lia; apply (i_oth _ _ (proj1 I3)); [exact V|rewrite ET; exact Ni]]
              |intros j Hj; lia
              |intros j Hj; rewrite R1 by lia; unfold st3; rewrite put_other by lia; apply U2; exact Hj]).
        * (* FIXED *)
          assert (Es : nwords C (h0 a) = objsize C (cix (h0 a))) by (unfold nwords; rewrite ET; reflexivity).
          assert (Ep : nptrs C (h0 a) = objsize C (cix (h0 a))) by (unfold nptrs; rewrite ET; reflexivity).
          assert (S2 : forall i, i < nptrs C (h0 a) -> src (vs ++ [a]) (iv (h0 a) i)).
          { intros i Hi. right; exists a, i. split; [exact (nth_error_In _ _ Hk)|auto]. }
          assert (G1 := CP (visit st a) _ _ I2 (S2 1 ltac:(lia)) ltac:(lia)).
          destruct (copyobj f C limit (visit st a) (iv (h0 a) 1)) as [st3 w1|st3| |]; cbn [good] in G1; auto.
          2: { destruct G1 as [new G1]. exists (a :: new). rewrite <- app_assoc in G1. exact G1. }
          destruct G1 as (new & I3 & W1 & K3 & U3).
          assert (L3 : length vs < length ((vs ++ [a]) ++ new)) by (rewrite !app_length in *; lia).
          assert (I4 := inv_put st3 _ (length vs) 1 w1 I3 L3).
          set (st4 := put st3 (n0 + length vs) 1 w1) in *.
          assert (B : 0 <? nwords C (h0 a) = true) by (apply Nat.ltb_lt; lia). rewrite B.
          rewrite (i_oth _ _ (proj1 I4) a 0 V) by (rewrite ET; discriminate).
          assert (G5 := CP st4 _ _ I4 (src_app _ new _ (S2 0 ltac:(lia))) ltac:(lia)).
          destruct (copyobj f C limit st4 (iv (h0 a) 0)) as [st5 w5|st5| |]; cbn [good] in G5; auto.
          2: { destruct G5 as [new5 G5]. exists (a :: new ++ new5). 
               rewrite <- !app_assoc in G5. exact G5. }
          destruct G5 as (new5 & I5 & W5 & K5 & U5).
          assert (L5 : length vs < length (((vs ++ [a]) ++ new) ++ new5)) by (rewrite !app_length in *; lia).
          assert (I6 := inv_put st5 _ (length vs) 0 w5 I5 L5).
          set (st6 := put st5 (n0 + length vs) 0 w5) in *.
          assert (Hk6 : nth_error (((vs ++ [a]) ++ new) ++ new5) (length vs) = Some a)
            by (do 2 apply nth_error_app_l; exact Hk).
          assert (G6 := copy_slots_ok (copyobj f C limit) (S (length vs)) CP (nwords C (h0 a) - 2) st6 _ (length vs) a 2
                         I6 Hk6 ltac:(lia) ltac:(lia) ltac:(rewrite ET; cbn [fpos]; lia)).
          destruct (copy_slots (copyobj f C limit) st6 a (n0 + length vs) 2 (nwords C (h0 a) - 2)) as [st7 w7|st7| |];
            cbn [good_slots] in G6; auto.
          2: { destruct G6 as [new7 G6]. exists (a :: new ++ new5 ++ new7).
               rewrite <- !app_assoc in G6. exact G6. }
          destruct G6 as (-> & new7 & I7 & W7 & U7 & K7 & O7).
          assert (EQ : (((vs ++ [a]) ++ new) ++ new5) ++ new7 = (vs ++ [a]) ++ (new ++ new5 ++ new7))
            by (rewrite <- !app_assoc; reflexivity).
          apply (finish_visit st vs a (new ++ new5 ++ new7)); [rewrite <- EQ; exact I7|exact L| | |].
          -- rewrite <- EQ. intros v Hv i Hi. 
             assert (v = a) by (rewrite (nth_error_app_l _ new7 _ _ Hk6) in Hv; congruence). subst v.
             rewrite Ep, <- Es. rewrite (proj2 (Nat.ltb_lt _ _) Hi).
             destruct (Nat.lt_ge_cases i 2) as [Li|Li]; [|apply W7; lia].
             rewrite U7 by lia. destruct (Nat.eq_dec i 0) as [Zi|Zi].
             ++ subst i. unfold st6. rewrite put_same. apply img_app. exact W5.
             ++ assert (i = 1) by lia. subst i. unfold st6. rewrite put_slot by lia.
                rewrite U5 by exact L3. unfold st4. rewrite put_same. do 2 apply img_app. exact W1.
          -- rewrite <- EQ. intros j Hj.
             destruct (Nat.lt_ge_cases j (length (((vs ++ [a]) ++ new) ++ new5))) as [Lj|Lj]; [|apply K7; lia].
             apply complete_app; [exact Lj|]. apply (complete_heap st5).
             { rewrite O7 by lia. apply put_other; lia. }
             destruct (Nat.lt_ge_cases j (length ((vs ++ [a]) ++ new))) as [Lj'|Lj']; [|apply K5; lia].
             apply complete_app; [exact Lj'|]. apply (complete_heap st3).
             { rewrite U5 by exact Lj'. apply put_other; lia. }
             apply K3. lia.
          -- intros j Hj. rewrite O7 by lia. unfold st6. rewrite put_other by lia.
             rewrite U5 by (rewrite !app_length in *; lia). unfold st4. rewrite put_other by lia.
             rewrite U3 by lia. apply U2; exact Hj.
        * (* POINTER *)
          assert (Es : nwords C (h0 a) = vsize (h0 a)) by (unfold nwords; rewrite ET; reflexivity).
          assert (Ep : nptrs C (h0 a) = vsize (h0 a)) by (unfold nptrs; rewrite ET; reflexivity).
          assert (S2 : forall i, i < nptrs C (h0 a) -> src (vs ++ [a]) (iv (h0 a) i)).
          { intros i Hi. right; exists a, i. split; [exact (nth_error_In _ _ Hk)|auto]. }
          assert (G1 := CP (visit st a) _ _ I2 (S2 0 ltac:(lia)) ltac:(lia)).
          destruct (copyobj f C limit (visit st a) (iv (h0 a) 0)) as [st3 w1|st3| |]; cbn [good] in G1; auto.
          2: { destruct G1 as [new G1]. exists (a :: new). rewrite <- app_assoc in G1. exact G1. }
          destruct G1 as (new & I3 & W1 & K3 & U3).
          assert (L3 : length vs < length ((vs ++ [a]) ++ new)) by (rewrite !app_length in *; lia).
          assert (I4 := inv_put st3 _ (length vs) 0 w1 I3 L3).
          set (st4 := put st3 (n0 + length vs) 0 w1) in *.
          assert (G6 := copy_slots_ok (copyobj f C limit) (S (length vs)) CP (nwords C (h0 a) - 1) st4 _ (length vs) a 1
                         I4 (nth_error_app_l _ new _ _ Hk) ltac:(lia) ltac:(lia) ltac:(rewrite ET; cbn [fpos]; lia)).
          destruct (copy_slots (copyobj f C limit) st4 a (n0 + length vs) 1 (nwords C (h0 a) - 1)) as [st7 w7|st7| |];
            cbn [good_slots] in G6; auto.
          2: { destruct G6 as [new7 G6]. exists (a :: new ++ new7). rewrite <- !app_assoc in G6. exact G6. }
          destruct G6 as (-> & new7 & I7 & W7 & U7 & K7 & O7).
          assert (EQ : ((vs ++ [a]) ++ new) ++ new7 = (vs ++ [a]) ++ (new ++ new7))
            by (rewrite <- !app_assoc; reflexivity).
          apply (finish_visit st vs a (new ++ new7)); [rewrite <- EQ; exact I7|exact L| | |].
          -- rewrite <- EQ. intros v Hv i Hi.
             assert (v = a) by (rewrite (nth_error_app_l _ new7 _ _ (nth_error_app_l _ new _ _ Hk)) in Hv; congruence).
             subst v. rewrite Ep, <- Es. rewrite (proj2 (Nat.ltb_lt _ _) Hi).
             destruct (Nat.eq_dec i 0) as [Zi|Zi]; [|apply W7; lia].
             subst i. rewrite U7 by lia. unfold st4. rewrite put_same. apply img_app. exact W1.
          -- rewrite <- EQ. intros j Hj.
             destruct (Nat.lt_ge_cases j (length ((vs ++ [a]) ++ new))) as [Lj|Lj]; [|apply K7; lia].
             apply complete_app; [exact Lj|]. apply (complete_heap st3).
             { rewrite O7 by lia. apply put_other; lia. }
             apply K3. lia.
          -- intros j Hj. rewrite O7 by lia. unfold st4. rewrite put_other by lia.
             rewrite U3 by lia. apply U2; exact Hj.
  Qed.
End Copy.
