(** Proofs about LU decomposition over a field. *)
From Coq Require Import List Arith Bool Lia Field.
From Verif Require Import MatModel MatSpec MatProofs LuModel LuSpec.
Import ListNotations.

Section Proofs.
Variables (F : Type) (zero one : F) (add mul sub : F -> F -> F) (neg : F -> F) (div : F -> F -> F) (inv : F -> F).
Hypothesis fth : field_theory zero one add mul sub neg div inv (@eq F).
Add Field Ff : fth.
Notation "0" := zero. Notation "1" := one. Infix "+" := add. Infix "*" := mul. Infix "-" := sub. Infix "/" := div.
Notation sum := (sum zero add). Notation row_times := (row_times zero add mul). Notation solves := (solves zero add mul).
Notation elt := (elt zero). Notation ar := (ar F). Notation state := (state F). Notation mat := (mat F).

(** ** Sums *)
Lemma sum_ext n f g : (forall i, (i < n)%nat -> f i = g i) -> sum n f = sum n g.
Proof. induction n as [|n IH]; intros H; cbn [LuSpec.sum]; [reflexivity|]. rewrite IH by (intros; apply H; lia). rewrite H by lia. reflexivity. Qed.
Lemma sum_zero n f : (forall i, (i < n)%nat -> f i = 0) -> sum n f = 0.
Proof. induction n as [|n IH]; intros H; cbn [LuSpec.sum]; [reflexivity|]. rewrite IH by (intros; apply H; lia). rewrite H by lia. ring. Qed.
Lemma sum_add n f g : sum n (fun i => f i + g i) = sum n f + sum n g.
Proof. induction n as [|n IH]; cbn [LuSpec.sum]; [ring|]. rewrite IH. ring. Qed.
Lemma sum_scale n c f : sum n (fun i => c * f i) = c * sum n f.
Proof. induction n as [|n IH]; cbn [LuSpec.sum]; [ring|]. rewrite IH. ring. Qed.
Lemma sum_scale_r n c f : sum n (fun i => f i * c) = sum n f * c.
Proof. induction n as [|n IH]; cbn [LuSpec.sum]; [ring|]. rewrite IH. ring. Qed.
Lemma sum_swap n m (f : nat -> nat -> F) : sum n (fun i => sum m (fun j => f i j)) = sum m (fun j => sum n (fun i => f i j)).
Proof.
  induction n as [|n IH]; cbn [LuSpec.sum].
  - symmetry. apply sum_zero. reflexivity.
  - rewrite IH, <- sum_add. reflexivity.
Qed.
Lemma sum_split n m f : sum (n + m)%nat f = sum n f + sum m (fun d => f (n + d)%nat).
Proof.
  induction m as [|m IH]; cbn [LuSpec.sum].
  - rewrite Nat.add_0_r. ring.
  - rewrite Nat.add_succ_r. cbn [LuSpec.sum]. rewrite IH. ring.
Qed.
Lemma sum_at n k f : (k < n)%nat -> sum n f = sum k f + f k + sum (n - S k)%nat (fun d => f (S k + d)%nat).
Proof. intros H. replace n with (S k + (n - S k))%nat at 1 by lia. rewrite sum_split. reflexivity. Qed.
Lemma sum_update n f z t v : (t < n)%nat ->
  sum n (fun j => f j * (if j =? t then v else z j)) = sum n (fun j => f j * z j) + f t * (v - z t).
Proof.
  intros H. rewrite !(sum_at n t) by exact H. rewrite Nat.eqb_refl.
  rewrite (sum_ext t _ (fun j => f j * z j)). 2:{ intros i Hi. destruct (Nat.eqb_spec i t); [lia|reflexivity]. }
  rewrite (sum_ext (n - S t) _ (fun d => f (S t + d)%nat * z (S t + d)%nat)).
  2:{ intros i Hi. destruct (Nat.eqb_spec (S t + i) t); [lia|reflexivity]. } ring.
Qed.
Lemma sum_pick n f t : (t < n)%nat -> sum n (fun j => f j * unit_matrix zero one j t) = f t.
Proof.
  intros H. rewrite (sum_at n t) by exact H. unfold unit_matrix. rewrite Nat.eqb_refl.
  rewrite sum_zero. 2:{ intros i Hi. destruct (Nat.eqb_spec i t); [lia|ring]. }
  rewrite sum_zero. 2:{ intros i Hi. destruct (Nat.eqb_spec (S t + i) t); [lia|ring]. } ring.
Qed.

(** ** Elimination *)
Lemma eliminate_row_eq n : forall j a pi pk al r c, pi <> pk ->
  eliminate_row F sub mul n j a pi pk al r c =
  if (r =? pi) && ((j <=? c) && (c <? j + n)%nat) then a r c - al * a pk c else a r c.
Proof.
  induction n as [|n IH]; intros j a pi pk al r c H; cbn [eliminate_row].
  - destruct (Nat.leb_spec j c); destruct (Nat.ltb_spec c (j + 0)%nat); try lia; cbn [andb]; rewrite ?andb_false_r; reflexivity.
  - rewrite IH by exact H. unfold setm. destruct (Nat.eqb_spec pk pi) as [E|_]; [congruence|]. cbn [andb].
    destruct (Nat.eqb_spec r pi) as [->|_]; cbn [andb]; [|reflexivity].
    destruct (Nat.leb_spec (S j) c); destruct (Nat.leb_spec j c); destruct (Nat.ltb_spec c (S j + n)%nat);
    destruct (Nat.ltb_spec c (j + S n)%nat); destruct (Nat.eqb_spec c j); try lia; cbn [andb]; try reflexivity. subst c. reflexivity.
Qed.
Definition inj_on s (p : nat -> nat) := forall i j, (i < s)%nat -> (j < s)%nat -> p i = p j -> i = j.
Lemma eliminate_eq s p k : inj_on s p -> (k < s)%nat -> forall n i a, (k < i)%nat -> (i + n)%nat = s ->
  forall i' c, (i' < s)%nat ->
  eliminate F sub mul n i a p s k (p i') c =
  if (i <=? i')%nat then
    if c =? k then a (p i') k * a (p k) k
    else if (k <? c)%nat && (c <? s)%nat then a (p i') c - a (p i') k * a (p k) k * a (p k) c else a (p i') c
  else a (p i') c.
Proof.
  intros Hinj Hk. induction n as [|n IH]; intros i a Hi Hn i' c Hi'; cbn [eliminate].
  - destruct (Nat.leb_spec i i'); [lia|reflexivity].
  - assert (p i <> p k) as Hne. { intros E. apply Hinj in E; lia. }
    assert (forall c', (c' = k -> False) \/ True) by auto.
    set (al := a (p i) k * a (p k) k). set (a1 := setm F a (p i) k al).
    set (a2 := eliminate_row F sub mul (s - S k) (S k) a1 (p i) (p k) al).
    assert (forall i0 c0, (i0 < s)%nat -> a2 (p i0) c0 = if i0 =? i then
        (if c0 =? k then al else if (k <? c0)%nat && (c0 <? s)%nat then a (p i) c0 - al * a (p k) c0 else a (p i) c0) else a (p i0) c0) as E2.
    { intros i0 c0 H0. unfold a2. rewrite eliminate_row_eq by exact Hne. unfold a1, setm.
      destruct (Nat.eqb_spec (p k) (p i)) as [E|_]; [congruence|]. cbn [andb].
      destruct (Nat.eqb_spec i0 i) as [->|Nn].
      - rewrite Nat.eqb_refl. cbn [andb].
        destruct (Nat.leb_spec (S k) c0); destruct (Nat.ltb_spec c0 (S k + (s - S k))%nat); destruct (Nat.eqb_spec c0 k);
        destruct (Nat.ltb_spec k c0); destruct (Nat.ltb_spec c0 s); try lia; cbn [andb]; reflexivity.
      - destruct (Nat.eqb_spec (p i0) (p i)) as [E|_]; [apply Hinj in E; lia|]. reflexivity. }
    rewrite IH by lia. rewrite !E2 by lia. destruct (Nat.eqb_spec k i); [lia|].
    destruct (Nat.eqb_spec i' i) as [->|Nn].
    + destruct (Nat.leb_spec (S i) i); [lia|]. destruct (Nat.leb_spec i i); [|lia].
      destruct (Nat.eqb_spec c k); [reflexivity|]. destruct ((k <? c)%nat && (c <? s)%nat); reflexivity.
    + destruct (Nat.leb_spec (S i) i'); destruct (Nat.leb_spec i i'); try lia; reflexivity.
Qed.

(** ** The invariant: after [k] columns, row p(i) of A is what is left in place plus multiples of the finished rows *)
Definition left (a : mat) (p : nat -> nat) (k i j : nat) : F :=
  if (i <? k)%nat then (if (j <? i)%nat then 0 else if (j =? i)%nat then inv (a (p i) i) else a (p i) j)
  else if (j <? k)%nat then 0 else a (p i) j.
Definition INV (A : mat) (s : nat) (a : mat) (p : nat -> nat) (k : nat) : Prop :=
  perm s p /\ (forall m, (m < k)%nat -> a (p m) m <> 0) /\
  forall i j, (i < s)%nat -> (j < s)%nat ->
    A (p i) j = left a p k i j + sum (Nat.min i k) (fun m => a (p i) m * left a p k m j).

Lemma INV_start A s : INV A s A (fun i => i) 0%nat.
Proof.
  split; [|split].
  - split; [auto|split; [auto|]]. intros r Hr. exists r. auto.
  - intros m Hm. lia.
  - intros i j Hi Hj. rewrite Nat.min_0_r. cbn [LuSpec.sum]. unfold left. cbn [Nat.ltb Nat.leb]. ring.
Qed.
Definition exch (p : nat -> nat) (k l : nat) : nat -> nat := setp (setp p k (p l)) l (p k).
Lemma exch_eq p k l i : k <> l -> exch p k l i = if i =? k then p l else if i =? l then p k else p i.
Proof.
  intros H. unfold exch, setp. destruct (Nat.eqb_spec i l); destruct (Nat.eqb_spec i k); try reflexivity. congruence.
Qed.
Lemma perm_exch s p k l : perm s p -> (k < s)%nat -> (l < s)%nat -> k <> l -> perm s (exch p k l).
Proof.
  intros (A & B & C) Hk Hl Hn. split; [|split].
  - intros i Hi. rewrite exch_eq by exact Hn. destruct (i =? k); [auto|]. destruct (i =? l); auto.
  - intros i j Hi Hj. rewrite !exch_eq by exact Hn.
    destruct (Nat.eqb_spec i k); destruct (Nat.eqb_spec j k); destruct (Nat.eqb_spec i l); destruct (Nat.eqb_spec j l); subst;
      intros E; try reflexivity; try (apply B in E; auto; congruence); auto.
  - intros r Hr. destruct (C r Hr) as (i & Hi & E). destruct (Nat.eq_dec i k) as [->|N1].
    + exists l. split; [exact Hl|]. rewrite exch_eq by exact Hn. destruct (Nat.eqb_spec l k); [congruence|]. rewrite Nat.eqb_refl. exact E.
    + destruct (Nat.eq_dec i l) as [->|N2].
      * exists k. split; [exact Hk|]. rewrite exch_eq by exact Hn. rewrite Nat.eqb_refl. exact E.
      * exists i. split; [exact Hi|]. rewrite exch_eq by exact Hn. destruct (Nat.eqb_spec i k); [congruence|].
        destruct (Nat.eqb_spec i l); [congruence|]. exact E.
Qed.
Lemma INV_exch A s a p k l : INV A s a p k -> (k < s)%nat -> (k <= l < s)%nat -> k <> l -> INV A s a (exch p k l) k.
Proof.
  intros (P & N & E) Hk Hl Hn.
  assert (forall m, (m < k)%nat -> exch p k l m = p m) as Hm.
  { intros m H. rewrite exch_eq by exact Hn. destruct (Nat.eqb_spec m k); [lia|]. destruct (Nat.eqb_spec m l); [lia|reflexivity]. }
  assert (forall m j, (m < k)%nat -> left a (exch p k l) k m j = left a p k m j) as Hleft.
  { intros m j H. unfold left. rewrite Hm by exact H. reflexivity. }
  split; [apply perm_exch; auto; lia|]. split.
  - intros m H. rewrite Hm by exact H. apply N. exact H.
  - intros i j Hi Hj. destruct (Nat.lt_ge_cases i k) as [Hik|Hik].
    + rewrite Hleft by exact Hik. rewrite Hm by exact Hik. rewrite (E i j Hi Hj). f_equal.
      apply sum_ext. intros m H. rewrite Hleft by lia. reflexivity.
    + assert (exists i0, (k <= i0 < s)%nat /\ exch p k l i = p i0) as (i0 & Hi0 & Ei).
      { rewrite exch_eq by exact Hn. destruct (Nat.eqb_spec i k); [exists l; split; [lia|reflexivity]|].
        destruct (Nat.eqb_spec i l); [exists k; split; [lia|reflexivity]|exists i; split; [lia|reflexivity]]. }
      assert (left a (exch p k l) k i j = left a p k i0 j) as ->.
      { unfold left. destruct (Nat.ltb_spec i k); [lia|]. destruct (Nat.ltb_spec i0 k); [lia|]. rewrite Ei. reflexivity. }
      rewrite Ei, (E i0 j) by lia. replace (Nat.min i k) with k by lia. replace (Nat.min i0 k) with k by lia. f_equal.
      apply sum_ext. intros m H. rewrite Hleft by lia. reflexivity.
Qed.
Lemma INV_step A s a p k : INV A s a p k -> (k < s)%nat -> a (p k) k <> 0 ->
  INV A s (eliminate F sub mul (s - S k) (S k) (setm F a (p k) k (1 / a (p k) k)) p s k) p (S k).
Proof.
  intros (P & N & E) Hk Hp. set (a1 := setm F a (p k) k (1 / a (p k) k)).
  set (a2 := eliminate F sub mul (s - S k) (S k) a1 p s k). set (piv := a (p k) k) in *.
  destruct P as (P1 & P2 & P3).
  assert (1 <> 0) as H10 by (apply (F_1_neq_0 fth)).
  assert (forall i c, (i < s)%nat -> a2 (p i) c =
    if (S k <=? i)%nat then
      if c =? k then a (p i) k * (1 / piv)
      else if (k <? c)%nat && (c <? s)%nat then a (p i) c - a (p i) k * (1 / piv) * a (p k) c else a (p i) c
    else if (i =? k) && (c =? k) then 1 / piv else a (p i) c) as E2.
  { intros i c Hi. unfold a2. rewrite eliminate_eq by (auto; lia). unfold a1, setm. rewrite !Nat.eqb_refl. cbn [andb].
    destruct (Nat.leb_spec (S k) i) as [Hik|Hik].
    - destruct (Nat.eqb_spec (p i) (p k)) as [Ep|_]; [apply P2 in Ep; lia|]. cbn [andb].
      destruct (Nat.eqb_spec c k) as [->|Nc]; [reflexivity|]. rewrite ?andb_false_r. reflexivity.
    - destruct (Nat.eqb_spec i k) as [->|Ni]; [rewrite Nat.eqb_refl; reflexivity|].
      destruct (Nat.eqb_spec (p i) (p k)) as [Ep|_]; [apply P2 in Ep; lia|]. reflexivity. }
  assert (forall i c, (i <= k)%nat -> c <> k -> a2 (p i) c = a (p i) c) as Elow.
  { intros i c Hi Hc. rewrite E2 by lia. destruct (Nat.leb_spec (S k) i); [lia|].
    destruct (Nat.eqb_spec c k); [congruence|]. rewrite andb_false_r. reflexivity. }
  assert (forall i c, (i < k)%nat -> a2 (p i) c = a (p i) c) as Elow2.
  { intros i c Hi. rewrite E2 by lia. destruct (Nat.leb_spec (S k) i); [lia|]. destruct (Nat.eqb_spec i k); [lia|]. reflexivity. }
  assert (forall m j, (m <= k)%nat -> (j < s)%nat -> left a2 p (S k) m j = left a p k m j) as Hleft.
  { intros m j Hm Hj. unfold left. destruct (Nat.ltb_spec m (S k)); [|lia]. destruct (Nat.eq_dec m k) as [->|Nm].
    - destruct (Nat.ltb_spec k k); [lia|]. destruct (Nat.ltb_spec j k); [reflexivity|].
      destruct (Nat.eqb_spec j k) as [->|Nj].
      + rewrite E2 by lia. destruct (Nat.leb_spec (S k) k); [lia|]. rewrite Nat.eqb_refl. cbn [andb]. fold piv. field. split; [assumption|].
        exact H10.
      + apply Elow; lia.
    - destruct (Nat.ltb_spec m k); [|lia]. rewrite !Elow2 by lia. reflexivity. }
  split; [exact (conj P1 (conj P2 P3))|]. split.
  - intros m Hm. destruct (Nat.eq_dec m k) as [->|Nm].
    + rewrite E2 by lia. destruct (Nat.leb_spec (S k) k); [lia|]. rewrite Nat.eqb_refl. cbn [andb].
      intros Hz. apply H10. transitivity (piv * (1 / piv)); [field; assumption|]. rewrite Hz. ring.
    + rewrite Elow2 by lia. apply N. lia.
  - intros i j Hi Hj. destruct (Nat.le_gt_cases i k) as [Hik|Hik].
    + rewrite Hleft by assumption. rewrite (E i j Hi Hj). replace (Nat.min i (S k)) with i by lia. replace (Nat.min i k) with i by lia.
      f_equal. apply sum_ext. intros m Hm. rewrite Hleft by lia. rewrite Elow by lia. reflexivity.
    + rewrite (E i j Hi Hj). replace (Nat.min i (S k)) with (S k) by lia. replace (Nat.min i k) with k by lia. cbn [LuSpec.sum].
      rewrite (sum_ext k (fun m => a2 (p i) m * left a2 p (S k) m j) (fun m => a (p i) m * left a p k m j)).
      2:{ intros m Hm. rewrite Hleft by lia. rewrite E2 by lia. destruct (Nat.leb_spec (S k) i); [|lia].
          destruct (Nat.eqb_spec m k); [lia|]. destruct (Nat.ltb_spec k m); [lia|]. reflexivity. }
      rewrite (Hleft k j) by lia. rewrite (E2 i k) by lia. destruct (Nat.leb_spec (S k) i); [|lia]. rewrite Nat.eqb_refl.
      generalize (sum k (fun m => a (p i) m * left a p k m j)). intros X. unfold left. destruct (Nat.ltb_spec i k); [lia|]. destruct (Nat.ltb_spec i (S k)); [lia|]. destruct (Nat.ltb_spec k k); [lia|].
      rewrite E2 by lia. destruct (Nat.leb_spec (S k) i); [|lia].
      destruct (Nat.ltb_spec j k) as [Hjk|Hjk]; [destruct (Nat.ltb_spec j (S k)); [|lia]; ring|].
      destruct (Nat.ltb_spec j (S k)) as [Hjk2|Hjk2].
      * replace j with k by lia. fold piv. field. assumption.
      * destruct (Nat.eqb_spec j k); [lia|]. destruct (Nat.ltb_spec k j); [|lia]. destruct (Nat.ltb_spec j s); [|lia]. cbn [andb].
        field. assumption.
Qed.

(** ** The loop *)
Variables (gt_abs : F -> F -> bool) (tiny : F -> bool).
Hypothesis tiny_zero : tiny 0 = true.
Notation pivot := (pivot F gt_abs). Notation decompose_loop := (decompose_loop F one sub mul div gt_abs tiny).
Notation decompose := (decompose F one sub mul div gt_abs tiny).
Lemma pivot_eq a p k : forall n i l, let '(l', al) := pivot n i a p k l (a (p l) k) in
  al = a (p l') k /\ (l' = l \/ (i <= l' < i + n)%nat).
Proof.
  induction n as [|n IH]; intros i l; cbn [MatModel.pivot].
  - auto.
  - destruct (gt_abs (a (p i) k) (a (p l) k)).
    + specialize (IH (S i) i). destruct (pivot n (S i) a p k i (a (p i) k)) as [l' al]. destruct IH as [E H]. split; [exact E|]. right. lia.
    + specialize (IH (S i) l). destruct (pivot n (S i) a p k l (a (p l) k)) as [l' al]. destruct IH as [E H]. split; [exact E|].
      destruct H as [->|H]; [left; reflexivity|right; lia].
Qed.
Lemma loop_ok A s : forall n k a p, INV A s a p k -> (k + n)%nat = s ->
  match decompose_loop n k a p s with
  | Some (a', p') => INV A s a' p' s
  | None => exists k' a' p', (k' < s)%nat /\ INV A s a' p' k' /\ tiny (snd (pivot (s - S k') (S k') a' p' k' k' (a' (p' k') k'))) = true
  end.
Proof.
  induction n as [|n IH]; intros k a p HI Hn; cbn [MatModel.decompose_loop].
  - replace s with k at 2 by lia. exact HI.
  - pose proof (pivot_eq a p k (s - S k) (S k) k) as Hp. destruct (pivot (s - S k) (S k) a p k k (a (p k) k)) as [l al] eqn:Epiv.
    destruct Hp as [Eal Hl].
    destruct (tiny al) eqn:Et.
    + exists k, a, p. split; [lia|]. split; [exact HI|]. rewrite Epiv. exact Et.
    + assert (al <> 0) as Hal by (intros ->; congruence).
      apply IH; [|lia]. destruct (Nat.eqb_spec l k) as [->|Nl].
      * apply INV_step; [exact HI|lia|]. rewrite <- Eal. exact Hal.
      * fold (exch p k l). apply INV_step; [apply INV_exch; auto; lia|lia|].
        rewrite exch_eq by auto. rewrite Nat.eqb_refl, <- Eal. exact Hal.
Qed.
Lemma decompose_ok A s a p : decompose A s = Some (a, p) -> INV A s a p s.
Proof.
  intros H. pose proof (loop_ok A s s 0 A (fun i => i) (INV_start A s) eq_refl) as K. unfold MatModel.decompose in H. rewrite H in K. exact K.
Qed.
End Proofs.
