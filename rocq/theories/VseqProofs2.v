(** Proofs for C89: copying, reversing, pushing, making and filling. *)
From Coq Require Import Lia.
From Verif Require Import VecProofs VseqModel VseqSpec VseqProofs.
Open Scope Z_scope.

Lemma loop_ext {S} (b b' : nat -> S -> out S) : forall n i s, (forall j s, (i <= j < i + n)%nat -> b j s = b' j s) -> loop n i b s = loop n i b' s.
Proof. induction n as [|n IH]; intros i s H; [reflexivity|]. cbn [loop]. rewrite H by lia. destruct (b' i s); cbn [bind]; auto. apply IH. intros j t Hj. apply H. lia. Qed.
Lemma set_ok v n x y : wf_vec v -> kept (kind_of v) x = Some y -> 0 <= n < Z.of_nat (vecsize v) ->
  exists v', set v n x = Ret v' /\ elements v' = update (elements v) (Z.to_nat n) y /\ wf_vec v' /\ vecsize v' = vecsize v /\ kind_of v' = kind_of v.
Proof. intros W K H. unfold set. destruct (Z.ltb_spec n 0); [lia|]. apply put_ok; [exact W|exact K|lia]. Qed.
Lemma shift_loop a r (g h : nat -> Z) k : wf_vec a -> wf_vec r -> kind_of r = kind_of a -> vecsize r = k -> (forall i, (i < k)%nat -> 0 <= g i < Z.of_nat (vecsize a)) ->
  (forall i, (i < k)%nat -> 0 <= h i < Z.of_nat k) -> (forall i j, (i < k)%nat -> (j < k)%nat -> h i = h j -> i = j) ->
  exists r', loop k 0 (fun i r => do x <- ref a (g i); set r (h i) x) r = Ret r' /\ wf_vec r' /\ kind_of r' = kind_of a /\ vecsize r' = k /\
    forall i, (i < k)%nat -> nth (Z.to_nat (h i)) (elements r') (Int 0) = nth (Z.to_nat (g i)) (elements a) (Int 0).
Proof.
  intros Wa Wr K Sz Hg Hh Hi.
  destruct (loop_inv (fun j r => wf_vec r /\ kind_of r = kind_of a /\ vecsize r = k /\ forall i, (i < j)%nat -> (i < k)%nat -> nth (Z.to_nat (h i)) (elements r) (Int 0) = nth (Z.to_nat (g i)) (elements a) (Int 0))
    (fun i r => do x <- ref a (g i); set r (h i) x) k 0 r) as (r' & E & W & K' & S' & H).
  - split; [exact Wr|]. split; [exact K|]. split; [exact Sz|]. intros i Hi0. lia.
  - intros j t Hj (Wt & Kt & St & Ht). destruct (move_ok a t (g j) (h j)) as (t' & Et & Ut & Wt' & St' & Kt'); auto; [apply Hg; lia|rewrite St; apply Hh; lia|].
    exists t'. split; [exact Et|]. split; [exact Wt'|]. split; [congruence|]. split; [congruence|]. intros i Hij Hik. rewrite Ut.
    assert (0 <= h j < Z.of_nat k) by (apply Hh; lia). assert (0 <= h i < Z.of_nat k) by (apply Hh; lia).
    rewrite update_nth by (rewrite elements_length by exact Wt; lia). destruct (Nat.eqb_spec (Z.to_nat (h i)) (Z.to_nat (h j))) as [Eh|Nh].
    + assert (i = j) as -> by (apply Hi; lia). reflexivity.
    + assert (i <> j) by congruence. apply Ht; lia.
  - exists r'. split; [exact E|]. split; [exact W|]. split; [exact K'|]. split; [exact S'|]. intros i Hik. apply H; lia.
Qed.
Lemma size_part a s n : wf_vec a -> 0 <= s -> 0 <= n -> s + n <= Z.of_nat (vecsize a) -> length (firstn (Z.to_nat n) (skipn (Z.to_nat s) (elements a))) = Z.to_nat n.
Proof. intros W Hs Hn H. rewrite firstn_length, skipn_length, elements_length by exact W. lia. Qed.
Lemma nth_part {A} (l : list A) s n i d : (i < Z.to_nat n)%nat -> nth i (firstn (Z.to_nat n) (skipn (Z.to_nat s) l)) d = nth (Z.to_nat s + i) l d.
Proof. intros H. rewrite nth_firstn'. destruct (Nat.ltb_spec i (Z.to_nat n)); [|lia]. apply nth_skipn'. Qed.
Lemma fastset_set v i x : fastvset v i x = set v (Z.of_nat i) x.
Proof. unfold set. destruct (Z.ltb_spec (Z.of_nat i) 0); [lia|]. rewrite Nat2Z.id. reflexivity. Qed.

(** a part of a vector, copied *)
Definition copied (a : vec) (s n : Z) (o : out sequ) : Prop :=
  exists r, o = Ret (Vec r) /\ wf_vec r /\ kind_of r = kind_of a /\ elements r = firstn (Z.to_nat n) (skipn (Z.to_nat s) (elements a)).
Lemma bit_copied a s n : wf_vec a -> kind_of a = KBit -> 0 <= s -> 0 <= n -> s + n <= Z.of_nat (vecsize a) ->
  copied a s n (do r <- makevector KBit n; do r <- loop (Z.to_nat n) 0 (fun i r => do x <- ref a (s + Z.of_nat i); fastvset r i x) r; Ret (Vec r)).
Proof.
  intros W K Hs Hn H. destruct (makevector_ok KBit n) as (r & E & Wr & Kr & Sr & _); [discriminate|exact Hn|]. rewrite E. cbn [bind].
  rewrite (loop_ext _ (fun i r => do x <- ref a (s + Z.of_nat i); set r (Z.of_nat i) x)) by (intros j t _; destruct (ref a _); cbn [bind]; auto; apply fastset_set).
  destruct (shift_loop a r (fun i => s + Z.of_nat i) Z.of_nat (Z.to_nat n) W Wr) as (r' & E' & W' & K' & S' & H'); [congruence|exact Sr|intros; lia|intros; lia|intros; lia|].
  rewrite E'. cbn [bind]. exists r'. split; [reflexivity|]. split; [exact W'|]. split; [exact K'|]. apply (nth_ext' _ _ (Int 0)).
  - rewrite elements_length by exact W'. rewrite size_part; auto.
  - intros i Hi. rewrite elements_length in Hi by exact W'. rewrite nth_part by lia. specialize (H' i). cbv beta in H'. rewrite Nat2Z.id in H'. rewrite H' by lia. f_equal. lia.
Qed.
Lemma vec_copied a s n : wf_vec a -> kind_of a <> KBit -> 0 <= s -> 0 <= n -> s + n <= Z.of_nat (vecsize a) ->
  copied a s n (do r <- makevector (kind_of a) n; do r <- copy_part r a s n; Ret (Vec r)).
Proof. intros W K Hs Hn H. destruct (copy_part_ok a s n W K Hs Hn H) as (r & r' & E & E' & A). rewrite E. cbn [bind]. rewrite E'. cbn [bind]. exists r'. split; [reflexivity|exact A]. Qed.
Lemma subseq_copied a s e e' : wf_vec a -> 0 <= s <= e -> e <= Z.of_nat (vecsize a) -> (e' = Some e \/ e' = None /\ e = Z.of_nat (vecsize a) \/ exists x, e' = Some x /\ e = Z.of_nat (vecsize a) /\ e <= x) ->
  copied a s (e - s) (subseq_vec a s e').
Proof.
  intros W Hs He Ee. assert (match e' with Some e => Z.min e (Z.of_nat (vecsize a)) | None => Z.of_nat (vecsize a) end = e) as E.
  { destruct Ee as [->|[[-> ->]|(x & -> & -> & Hx)]]; lia. }
  unfold subseq_vec. rewrite E. destruct a as [m ws|m bs|ws|vs]; [apply bit_copied|apply vec_copied|apply vec_copied|apply vec_copied]; auto; try lia; discriminate.
Qed.
Lemma copyseq_copied a : wf_vec a -> copied a 0 (Z.of_nat (vecsize a)) (copyseq_vec a).
Proof.
  intros W. unfold copyseq_vec. destruct a as [m ws|m bs|ws|vs]; [|apply vec_copied; auto; try lia; discriminate..]. pose proof (bit_copied (VBit m ws) 0 (Z.of_nat m) W eq_refl) as H. cbn [vecsize kind_of] in *.
  rewrite Nat2Z.id in H. destruct H as (r & E & A); try lia. exists r. split; [|exact A]. destruct (makevector KBit (Z.of_nat m)) as [r0| | |]; cbn [bind] in *; try discriminate.
  rewrite <- E. f_equal. apply loop_ext. intros j t _. unfold ref. destruct (Z.ltb_spec (0 + Z.of_nat j) 0); [lia|]. rewrite Z.add_0_l, Nat2Z.id. reflexivity.
Qed.
Lemma copied_all a o : wf_vec a -> copied a 0 (Z.of_nat (vecsize a)) o -> exists r, o = Ret (Vec r) /\ wf_vec r /\ kind_of r = kind_of a /\ elements r = elements a.
Proof. intros W (r & E & Wr & Kr & Er). exists r. rewrite Nat2Z.id in Er. cbn [Z.to_nat skipn] in Er. rewrite firstn_all2 in Er by (rewrite elements_length by exact W; lia). auto. Qed.

(** the part that an array is *)
Lemma part_ok q : proper q -> sort_of q <> KList -> exists a s k, part q = Ret (a, s, k) /\ wf_vec a /\ kind_of a = sort_of q /\ 0 <= s /\ 0 <= k /\ s + k <= Z.of_nat (vecsize a) /\
  contents q = firstn (Z.to_nat k) (skipn (Z.to_nat s) (elements a)).
Proof.
  destruct q as [l|v|a]; cbn [proper sort_of part contents]; intros P K; [congruence| |].
  - exists v, 0, (Z.of_nat (vecsize v)). split; [reflexivity|]. split; [exact P|]. split; [reflexivity|]. repeat (split; [lia|]). rewrite Nat2Z.id. cbn [Z.to_nat skipn]. rewrite firstn_all2 by (rewrite elements_length by exact P; lia). reflexivity.
  - destruct P as (W & d & Ed & H1 & H2 & H3). exists (a_ent a), (a_off a), d. rewrite Ed. cbn [nth]. split; [reflexivity|]. auto 10.
Qed.
Lemma reverse_ok q : proper q -> sort_of q <> KList -> exists r, REVERSE q = Ret (Vec r) /\ wf_vec r /\ kind_of r = sort_of q /\ elements r = rev (contents q).
Proof.
  intros P K. destruct (part_ok q P K) as (a & s & k & E & W & Ka & Hs & Hk & H & C). unfold REVERSE. destruct q as [l|v|aa]; [cbn in K; congruence| |]; rewrite E; cbn [bind];
  (destruct (makevector_ok (kind_of a) k) as (r & Er & Wr & Kr & Sr & _); [congruence|exact Hk|]); rewrite Er; cbn [bind];
  (destruct (shift_loop a r (fun i => s + Z.of_nat i) (fun i => k - Z.of_nat i - 1) (Z.to_nat k) W Wr Kr Sr) as (r' & E' & W' & K' & S' & H'); [intros; lia|intros; lia|intros; lia|]);
  rewrite E'; cbn [bind]; exists r'; (split; [reflexivity|]); (split; [exact W'|]); (split; [congruence|]); rewrite C; apply (nth_ext' _ _ (Int 0));
  (rewrite ?rev_length, elements_length by exact W'; try (rewrite size_part; auto)); intros i Hi;
  (rewrite rev_nth by (rewrite size_part; auto; lia)); rewrite size_part by auto; (rewrite nth_part by lia); specialize (H' (Z.to_nat k - S i)%nat); cbv beta in H';
  replace i with (Z.to_nat (k - Z.of_nat (Z.to_nat k - S i) - 1)) at 1 by lia; (rewrite H' by lia); f_equal; lia.
Qed.
(** NREVERSE, for a part at the front of its vector *)
Lemma nreverse_ok q a k : proper q -> part q = Ret (a, 0, k) -> wf_vec a -> 0 <= k <= Z.of_nat (vecsize a) ->
  exists a', NREVERSE q = Ret a' /\ wf_vec a' /\ kind_of a' = kind_of a /\ vecsize a' = vecsize a /\ elements a' = rev (firstn (Z.to_nat k) (elements a)) ++ skipn (Z.to_nat k) (elements a).
Proof.
  intros P E W Hk. unfold NREVERSE. rewrite E. cbn [bind]. set (e := elements a). set (K := Z.to_nat k).
  set (want := fun j m => if (m <? K)%nat && ((m <? j)%nat || (K - j <=? m)%nat) then nth (K - 1 - m) e (Int 0) else nth m e (Int 0)).
  destruct (loop_inv (fun j t => wf_vec t /\ kind_of t = kind_of a /\ vecsize t = vecsize a /\ forall m, (m < vecsize a)%nat -> nth m (elements t) (Int 0) = want j m)
    (fun i a => do x <- ref a (0 + Z.of_nat i); do y <- ref a (k - Z.of_nat i - 1); do a <- set a (0 + Z.of_nat i) y; set a (k - Z.of_nat i - 1) x) (Z.to_nat (k / 2)) 0 a) as (a' & E' & W' & K' & S' & H').
  - split; [exact W|]. split; [reflexivity|]. split; [reflexivity|]. intros m Hm. unfold want. destruct (Nat.ltb_spec m K), (Nat.leb_spec (K - 0) m); try lia; reflexivity.
  - intros j t Hj (Wt & Kt & St & Ht). assert (Z.of_nat j < k / 2) as Hj2 by lia. assert (2 * (k / 2) <= k) by (apply Z.mul_div_le; lia).
    unfold ref at 1. destruct (Z.ltb_spec (0 + Z.of_nat j) 0); [lia|]. rewrite fastvref_ok by (exact Wt || lia). cbn [bind]. set (x := nth (Z.to_nat (0 + Z.of_nat j)) (elements t) (Int 0)).
    unfold ref. destruct (Z.ltb_spec (k - Z.of_nat j - 1) 0); [lia|]. rewrite fastvref_ok by (exact Wt || lia). cbn [bind]. set (y := nth (Z.to_nat (k - Z.of_nat j - 1)) (elements t) (Int 0)).
    destruct (set_ok t (0 + Z.of_nat j) y y Wt) as (t1 & E1 & U1 & W1 & S1 & K1); [apply fits_kept, elem_fits; [exact Wt|lia]|lia|]. rewrite E1. cbn [bind].
    destruct (set_ok t1 (k - Z.of_nat j - 1) x x W1) as (t2 & E2 & U2 & W2 & S2 & K2); [rewrite K1; apply fits_kept, elem_fits; [exact Wt|lia]|lia|].
    exists t2. split; [exact E2|]. split; [exact W2|]. split; [congruence|]. split; [congruence|]. intros m Hm. rewrite U2.
    rewrite update_nth by (rewrite elements_length by exact W1; lia). rewrite U1. rewrite update_nth by (rewrite elements_length by exact Wt; lia). unfold x, y. rewrite !Ht by lia. unfold want.
    destruct (Nat.eqb_spec m (Z.to_nat (k - Z.of_nat j - 1))) as [->|N1].
    + destruct (Nat.ltb_spec (Z.to_nat (0 + Z.of_nat j)) K), (Nat.ltb_spec (Z.to_nat (0 + Z.of_nat j)) j), (Nat.leb_spec (K - j) (Z.to_nat (0 + Z.of_nat j))); try lia. cbn [andb orb].
      destruct (Nat.ltb_spec (Z.to_nat (k - Z.of_nat j - 1)) K), (Nat.leb_spec (K - S j) (Z.to_nat (k - Z.of_nat j - 1))); try lia. rewrite orb_true_r. cbn [andb]. f_equal. lia.
    + destruct (Nat.eqb_spec m (Z.to_nat (0 + Z.of_nat j))) as [->|N2].
      * destruct (Nat.ltb_spec (Z.to_nat (k - Z.of_nat j - 1)) K), (Nat.ltb_spec (Z.to_nat (k - Z.of_nat j - 1)) j), (Nat.leb_spec (K - j) (Z.to_nat (k - Z.of_nat j - 1))); try lia. cbn [andb orb].
        destruct (Nat.ltb_spec (Z.to_nat (0 + Z.of_nat j)) K), (Nat.ltb_spec (Z.to_nat (0 + Z.of_nat j)) (S j)); try lia. cbn [andb orb]. f_equal. lia.
      * destruct (Nat.ltb_spec m K), (Nat.ltb_spec m j), (Nat.ltb_spec m (S j)), (Nat.leb_spec (K - j) m), (Nat.leb_spec (K - S j) m); try lia; reflexivity.
  - exists a'. split; [exact E'|]. split; [exact W'|]. split; [exact K'|]. split; [exact S'|]. assert (length e = vecsize a) as Le by (apply elements_length; exact W).
    assert (length (firstn K e) = K) as Lf by (rewrite firstn_length; lia). apply (nth_ext' _ _ (Int 0)).
    + rewrite elements_length by exact W'. rewrite app_length, rev_length, Lf, skipn_length. lia.
    + intros m Hm. rewrite elements_length in Hm by exact W'. rewrite H' by lia. unfold want. rewrite nth_app', rev_length, Lf. destruct (Nat.ltb_spec m K) as [Lm|Gm].
      * rewrite rev_nth by lia. rewrite Lf, nth_firstn'. destruct (Nat.ltb_spec (K - S m) K); [|lia]. cbn [andb]. assert (k = 2 * (k / 2) + k mod 2) by (apply Z.div_mod; lia). pose proof (Z.mod_pos_bound k 2).
        destruct (Nat.ltb_spec m (0 + Z.to_nat (k / 2))), (Nat.leb_spec (K - (0 + Z.to_nat (k / 2))) m); cbn [orb]; f_equal; lia.
      * cbn [andb]. rewrite nth_skipn'. f_equal. lia.
Qed.
(** pushing *)
Lemma push_vec_ok v off count : wf_vec v -> 0 <= off <= Z.of_nat (vecsize v) -> match count with Some c => 0 <= c | None => True end ->
  push_vec v off count = Ret (firstn (Z.to_nat (limited count (Z.of_nat (vecsize v) - off))) (skipn (Z.to_nat off) (elements v))).
Proof.
  intros W Ho Hc. unfold push_vec. set (len := limited count (Z.of_nat (vecsize v) - off)). assert (0 <= len /\ off + len <= Z.of_nat (vecsize v)) as [L1 L2] by (unfold len, limited; destruct count; lia).
  destruct (Z.ltb_spec len 0); [lia|].
  destruct (loop_inv (fun j l => l = firstn j (skipn (Z.to_nat off) (elements v))) (fun i l => do x <- ref v (off + Z.of_nat i); Ret (l ++ [x])) (Z.to_nat len) 0 []) as (l & E & H'); [reflexivity| |rewrite E, H'; reflexivity].
  intros j l Hj ->. unfold ref. destruct (Z.ltb_spec (off + Z.of_nat j) 0); [lia|]. rewrite fastvref_ok by (exact W || lia). cbn [bind]. eexists. split; [reflexivity|].
  assert (forall (A : Type) (l : list A) n d, (n < length l)%nat -> firstn n l ++ [nth n l d] = firstn (S n) l) as Hs.
  { intros A l. induction l as [|x l IH]; intros [|n] d Hn; cbn in *; try lia; auto. f_equal. apply IH. lia. }
  rewrite <- (Hs _ _ _ (Int 0)) by (rewrite skipn_length, elements_length by exact W; lia). rewrite nth_skipn'. do 2 f_equal. f_equal. lia.
Qed.
Lemma push_ok q : proper q -> to_end q -> pushsequence q 0 None = Ret (contents q).
Proof.
  destruct q as [l|v|a]; cbn [proper to_end pushsequence contents].
  - intros _ _. destruct l; reflexivity.
  - intros W _. rewrite push_vec_ok by (auto; lia). cbn [limited]. rewrite Z.sub_0_r, Nat2Z.id. cbn [Z.to_nat skipn]. rewrite firstn_all2 by (rewrite elements_length by exact W; lia). reflexivity.
  - intros (W & d & Ed & H1 & H2 & H3) He. rewrite Ed in *. cbn [nth] in *. rewrite push_vec_ok by (auto; lia). cbn [limited]. rewrite Z.add_0_l. do 3 f_equal. lia.
Qed.
Lemma push_all_ok qs : Forall proper qs -> Forall to_end qs -> push_all qs = Ret (concat (map contents qs)).
Proof. induction qs as [|q qs IH]; intros P T; [reflexivity|]. inversion P; subst. inversion T; subst. cbn [push_all map concat]. rewrite push_ok by assumption. cbn [bind]. rewrite IH by assumption. reflexivity. Qed.
