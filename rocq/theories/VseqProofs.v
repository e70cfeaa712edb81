(** Proofs for C89. *)
From Coq Require Import Lia.
From Verif Require Import VecProofs VseqModel VseqSpec.
Open Scope Z_scope.

Lemma loop_inv {S} (P : nat -> S -> Prop) body : forall n i s, P i s -> (forall j s, (i <= j < i + n)%nat -> P j s -> exists s', body j s = Ret s' /\ P (Datatypes.S j) s') ->
  exists s', loop n i body s = Ret s' /\ P (i + n)%nat s'.
Proof.
  induction n as [|n IH]; intros i s H0 Hs.
  - exists s. rewrite Nat.add_0_r. auto.
  - destruct (Hs i s) as (s1 & E1 & H1); [lia|exact H0|]. destruct (IH (Datatypes.S i) s1 H1) as (s2 & E2 & H2).
    + intros j t Hj. apply Hs. lia.
    + exists s2. cbn [loop]. rewrite E1. cbn [bind]. replace (i + Datatypes.S n)%nat with (Datatypes.S i + n)%nat by lia. auto.
Qed.
Definition blank (k : kind) : value := match k with KPtr | KList => NIL | _ => Int 0 end.
Lemma nth_repeat' {A} (x d : A) n i : (i < n)%nat -> nth i (repeat x n) d = x.
Proof. revert i. induction n as [|n IH]; intros [|i] H; cbn; try lia; auto. apply IH. lia. Qed.
Lemma word_zero n i : word_bit (repeat 0 n) i = false.
Proof. unfold word_bit. destruct (Nat.lt_ge_cases (i / 64) n); [rewrite nth_repeat' by assumption|rewrite nth_overflow by (rewrite repeat_length; lia)]; apply Z.bits_0. Qed.
Lemma makevector_ok k n : k <> KList -> 0 <= n -> exists r, makevector k n = Ret r /\ wf_vec r /\ kind_of r = k /\ vecsize r = Z.to_nat n /\
  forall i, (i < Z.to_nat n)%nat -> nth i (elements r) (Int 0) = blank k.
Proof.
  intros Hk Hn. unfold makevector. destruct (Z.ltb_spec n 0); [lia|]. destruct k; [congruence| | | |]; eexists; (split; [reflexivity|]); (split; [|split; [reflexivity|split]]).
  - split; [apply repeat_length|]. apply Forall_forall. intros x Hx. apply repeat_spec in Hx. lia.
  - reflexivity.
  - intros i Hi. cbn [elements]. rewrite (nth_indep _ (Int 0) (Int (b2z (word_bit (repeat 0 (bv_words (Z.to_nat n))) 0)))) by (rewrite map_length, seq_length; exact Hi).
    rewrite (map_nth (fun i => Int (b2z (word_bit (repeat 0 (bv_words (Z.to_nat n))) i)))), word_zero. reflexivity.
  - split; [apply repeat_length|]. apply Forall_forall. intros x Hx. apply repeat_spec in Hx. lia.
  - reflexivity.
  - intros i Hi. cbn [elements]. rewrite map_nth. pose proof (byte_lt (Z.to_nat n)).
    assert (forall (l : list Z) s j, (j < s)%nat -> nth j (firstn s l) 0 = nth j l 0) as Hf.
    { induction l as [|x l IH]; intros [|s] [|j] Hj; cbn; try lia; auto. apply IH. lia. }
    cbn [blank]. f_equal. rewrite Hf by exact Hi. apply nth_repeat'. lia.
  - apply Forall_forall. intros x Hx. apply repeat_spec in Hx. unfold in_long. lia.
  - cbn. apply repeat_length.
  - intros i Hi. cbn [elements]. rewrite map_nth, nth_repeat' by exact Hi. reflexivity.
  - exact Logic.I.
  - cbn. apply repeat_length.
  - intros i Hi. cbn [elements]. rewrite nth_repeat' by exact Hi. reflexivity.
Qed.

(** storing what is kept of a value *)
Definition kfits (k : kind) (x : value) : Prop :=
  match k, x with KBit, Int z => z = 0 \/ z = 1 | KByte, Int z => 0 <= z < 256 | KInt, Int z => in_long z | KPtr, _ | KList, _ => True | _, Obj _ => False end.
Lemma fits_kind v x : fits v x <-> kfits (kind_of v) x. Proof. destruct v, x; cbn; tauto. Qed.
Lemma kept_fits k x y : kept k x = Some y -> kfits k y.
Proof.
  destruct k, x as [z|]; cbn; intros [= <-]; auto; cbn.
  - pose proof (Z.mod_pos_bound z 2). lia.
  - apply Z.mod_pos_bound. lia.
  - apply wrap64_range.
Qed.
Lemma fits_kept k x : kfits k x -> kept k x = Some x.
Proof.
  destruct k, x as [z|]; cbn; intros H; try tauto; auto.
  - destruct H as [->| ->]; reflexivity.
  - rewrite Z.mod_small by exact H. reflexivity.
  - rewrite wrap64_id by exact H. reflexivity.
Qed.
Lemma wrap64_mod z m : 0 < m -> (m | 2 ^ 64) -> wrap64 z mod m = z mod m.
Proof.
  intros Hm [c Hc]. unfold wrap64. rewrite (Z.mod_eq (z + 2 ^ 63) (2 ^ 64)) by lia.
  replace (z + 2 ^ 63 - 2 ^ 64 * ((z + 2 ^ 63) / 2 ^ 64) - 2 ^ 63) with (z + (- (c * ((z + 2 ^ 63) / 2 ^ 64))) * m) by (rewrite Hc; ring). apply Z.mod_add. lia.
Qed.
Lemma fastvset_kept v n x y : kept (kind_of v) x = Some y -> fastvset v n x = fastvset v n y.
Proof.
  destruct v as [s ws|s bs|ws|vs], x as [z|]; cbn [kind_of kept]; intros [= <-]; try reflexivity; cbn [fastvset coerceintval bind].
  - replace (Z.land (wrap64 (z mod 2)) 1) with (Z.land (wrap64 z) 1); [reflexivity|]. rewrite !(Z.land_ones _ 1) by lia. change (2 ^ 1) with 2.
    rewrite !wrap64_mod by (lia || (exists (2 ^ 63); reflexivity)). rewrite Z.mod_mod by lia. reflexivity.
  - rewrite !wrap64_mod by (lia || (exists (2 ^ 56); reflexivity)). rewrite Z.mod_mod by lia. reflexivity.
  - rewrite (wrap64_id (wrap64 z)) by apply wrap64_range. reflexivity.
Qed.
Lemma fastvset_kind v n x v' : fastvset v n x = Ret v' -> kind_of v' = kind_of v.
Proof.
  destruct v as [s ws|s bs|ws|vs]; cbn [fastvset]; [destruct (coerceintval x); cbn [bind]; try discriminate; destruct (load _ _); cbn [bind]; try discriminate| | |];
  try (destruct (coerceintval x); cbn [bind]; try discriminate); destruct (store _ _ _); cbn [bind]; intros [= <-]; reflexivity.
Qed.
Lemma put_ok v n x y : wf_vec v -> kept (kind_of v) x = Some y -> (n < vecsize v)%nat ->
  exists v', fastvset v n x = Ret v' /\ elements v' = update (elements v) n y /\ wf_vec v' /\ vecsize v' = vecsize v /\ kind_of v' = kind_of v.
Proof.
  intros W K H. rewrite (fastvset_kept v n x y K). destruct (fastvset_ok v n y W) as (v' & E & A & B & D); [apply fits_kind; exact (kept_fits _ _ _ K)|exact H|].
  exists v'. split; [exact E|]. split; [exact A|]. split; [exact B|]. split; [exact D|]. exact (fastvset_kind _ _ _ _ E).
Qed.
Lemma elem_fits v i : wf_vec v -> (i < vecsize v)%nat -> kfits (kind_of v) (nth i (elements v) (Int 0)).
Proof.
  intros W H. destruct v as [s ws|s bs|ws|vs]; cbn [kind_of elements].
  - cbn in H. rewrite (nth_indep _ (Int 0) (Int (b2z (word_bit ws 0)))) by (rewrite map_length, seq_length; exact H). rewrite (map_nth (fun i => Int (b2z (word_bit ws i)))). cbn. destruct (word_bit ws _); cbn; auto.
  - rewrite map_nth. cbn [vecsize wf_vec] in H, W. cbn [kfits]. destruct W as [W1 W2]. pose proof (byte_lt s). assert (Forall (fun b => 0 <= b < 256) (firstn s bs)) as F by (apply Forall_forall; intros x Hx; rewrite Forall_forall in W2; apply W2; rewrite <- (firstn_skipn s bs); apply in_or_app; auto).
    rewrite Forall_forall in F. apply F, nth_In. rewrite firstn_length. lia.
  - rewrite map_nth. cbn in *. rewrite Forall_forall in W. apply W, nth_In. exact H.
  - exact Logic.I.
Qed.
(** an element put somewhere else *)
Lemma move_ok v r s m : wf_vec v -> wf_vec r -> kind_of r = kind_of v -> 0 <= s < Z.of_nat (vecsize v) -> 0 <= m < Z.of_nat (vecsize r) ->
  exists r', (do x <- ref v s; set r m x) = Ret r' /\ elements r' = update (elements r) (Z.to_nat m) (nth (Z.to_nat s) (elements v) (Int 0)) /\ wf_vec r' /\ vecsize r' = vecsize r /\ kind_of r' = kind_of r.
Proof.
  intros Wv Wr K Hs Hm. unfold ref, set. destruct (Z.ltb_spec s 0); [lia|]. destruct (Z.ltb_spec m 0); [lia|]. rewrite fastvref_ok by (exact Wv || lia). cbn [bind].
  apply put_ok; [exact Wr| |lia]. apply fits_kept. rewrite K. apply elem_fits; [exact Wv|lia].
Qed.
Lemma nth_firstn' {A} (l : list A) n i d : nth i (firstn n l) d = if (i <? n)%nat then nth i l d else d.
Proof. revert n i. induction l as [|x l IH]; intros [|n] [|i]; cbn [firstn nth]; auto; [destruct (S i <? S n)%nat; reflexivity|]. rewrite IH. reflexivity. Qed.
Lemma nth_skipn' {A} (l : list A) n i d : nth i (skipn n l) d = nth (n + i) l d.
Proof. revert l. induction n as [|n IH]; intros [|x l]; cbn; auto. destruct i; reflexivity. Qed.
Lemma nth_app' {A} (l l' : list A) i d : nth i (l ++ l') d = if (i <? length l)%nat then nth i l d else nth (i - length l) l' d.
Proof. destruct (Nat.ltb_spec i (length l)); [apply app_nth1|apply app_nth2]; lia. Qed.

(** memcpy into a new vector *)
Lemma memcpy_ok {A} (dst src : list A) s n : 0 <= s -> 0 <= n -> s + n <= Z.of_nat (length src) -> n <= Z.of_nat (length dst) ->
  memcpy dst src s n = Ret (firstn (Z.to_nat n) (skipn (Z.to_nat s) src) ++ skipn (Z.to_nat n) dst).
Proof. intros. unfold memcpy. destruct (Z.ltb_spec s 0), (Z.ltb_spec n 0), (Z.ltb_spec (Z.of_nat (length src)) (s + n)), (Z.ltb_spec (Z.of_nat (length dst)) n); try lia. reflexivity. Qed.
Lemma Forall_part {A} (P : A -> Prop) l n m : Forall P l -> Forall P (firstn n (skipn m l)).
Proof. intros H. apply Forall_forall. intros x Hx. rewrite Forall_forall in H. apply H. rewrite <- (firstn_skipn m l). apply in_or_app. right. rewrite <- (firstn_skipn n (skipn m l)). apply in_or_app. auto. Qed.
Lemma copy_part_ok a s n : wf_vec a -> kind_of a <> KBit -> 0 <= s -> 0 <= n -> s + n <= Z.of_nat (vecsize a) ->
  exists r r', makevector (kind_of a) n = Ret r /\ copy_part r a s n = Ret r' /\ wf_vec r' /\ kind_of r' = kind_of a /\ elements r' = firstn (Z.to_nat n) (skipn (Z.to_nat s) (elements a)).
Proof.
  intros W NB Hs Hn H. unfold makevector. destruct (Z.ltb_spec n 0); [lia|]. destruct a as [m ws|m bs|ws|vs]; cbn [kind_of vecsize] in *; [congruence| | |]; eexists; eexists; (split; [reflexivity|]); cbn [copy_part].
  - destruct W as [W1 W2]. pose proof (byte_lt m). pose proof (byte_lt (Z.to_nat n)). rewrite memcpy_ok; rewrite ?repeat_length; try lia. cbn [bind]. split; [reflexivity|].
    assert (length (firstn (Z.to_nat n) (skipn (Z.to_nat s) bs)) = Z.to_nat n) as L by (rewrite firstn_length, skipn_length; lia).
    split; [|split; [reflexivity|]].
    + split; [rewrite app_length, L, skipn_length, repeat_length; lia|]. apply Forall_app. split; [apply Forall_part; exact W2|].
      apply Forall_forall. intros x Hx.
      assert (In x (repeat 0 (8 * ((Z.to_nat n + 8) / 8))%nat)) as Hx' by (rewrite <- (firstn_skipn (Z.to_nat n) (repeat 0 _)); apply in_or_app; auto). apply repeat_spec in Hx'. lia.
    + cbn [elements]. rewrite firstn_app, L, Nat.sub_diag. cbn [firstn]. rewrite app_nil_r, firstn_firstn, Nat.min_id. rewrite skipn_map, firstn_map. f_equal.
      rewrite skipn_firstn_comm, firstn_firstn. f_equal. lia.
  - rewrite memcpy_ok; rewrite ?repeat_length; try lia. cbn [bind]. split; [reflexivity|]. split; [|split; [reflexivity|]].
    + cbn. apply Forall_app. split; [apply Forall_part; exact W|]. rewrite (skipn_all2 (repeat 0 (Z.to_nat n))) by (rewrite repeat_length; lia). constructor.
    + cbn [elements]. rewrite (skipn_all2 (repeat 0 (Z.to_nat n))) by (rewrite repeat_length; lia). rewrite app_nil_r, skipn_map, firstn_map. reflexivity.
  - rewrite memcpy_ok; rewrite ?repeat_length; try lia. cbn [bind]. split; [reflexivity|]. split; [exact Logic.I|split; [reflexivity|]].
    cbn [elements]. rewrite (skipn_all2 (repeat NIL (Z.to_nat n))) by (rewrite repeat_length; lia). apply app_nil_r.
Qed.
