(** Proofs for C89: making sequences from values, FILL, MAP. *)
From Coq Require Import Lia.
From Verif Require Import VecProofs VseqModel VseqSpec VseqProofs VseqProofs2.
Open Scope Z_scope.

Lemma bit_nth s ws m : (m < s)%nat -> nth m (elements (VBit s ws)) (Int 0) = Int (b2z (word_bit ws m)).
Proof. intros H. cbn [elements]. rewrite (nth_indep _ (Int 0) (Int (b2z (word_bit ws 0)))) by (rewrite map_length, seq_length; exact H). rewrite (map_nth (fun i => Int (b2z (word_bit ws i)))), seq_nth by exact H. reflexivity. Qed.
Lemma u64_ext x y : (forall j, 0 <= j < 64 -> Z.testbit x j = Z.testbit y j) -> u64 x = u64 y.
Proof.
  intros H. apply Z.bits_inj'. intros j Hj. destruct (Z.lt_ge_cases j 64) as [Hl|Hg]; [rewrite !u64_bits by lia; apply H; lia|].
  unfold u64. rewrite !Z.mod_pow2_bits_high by lia. reflexivity.
Qed.
Lemma or_bit_set v n x : wf_vec v -> (n < vecsize v)%nat -> (kind_of v = KBit -> nth n (elements v) (Int 0) = Int 0) -> or_bit v n x = fastvset v n x.
Proof.
  intros W H B. destruct v as [s ws|s bs|ws|vs]; [|reflexivity..]. cbn [or_bit fastvset]. destruct (coerceintval x) as [b| | |]; cbn [bind]; try reflexivity.
  specialize (B eq_refl). cbn [vecsize] in H. rewrite bit_nth in B by exact H. cbn [wf_vec] in W. destruct W as [W1 W2]. assert (n / 64 < length ws)%nat as Hl by (rewrite W1; apply div64_lt; exact H).
  rewrite (load_ok _ _ 0) by exact Hl. cbn [bind]. do 2 f_equal. set (w := nth (n / 64) ws 0) in *. assert (Z.testbit w (Z.of_nat (n mod 64)) = false) as B0.
  { unfold word_bit in B. fold w in B. destruct (Z.testbit w (Z.of_nat (n mod 64))); [discriminate|reflexivity]. }
  pose proof (mod64 n) as Hm. set (k := Z.of_nat (n mod 64)) in *. assert (0 <= k < 64) as Hk by lia.
  change (Z.land b 1) with (Z.land b (Z.ones 1)). rewrite (Z.land_ones b 1) by lia. change (2 ^ 1) with 2. pose proof (Z.mod_pos_bound b 2). destruct (Z.eqb_spec (b mod 2) 0) as [E|E].
  - rewrite E, Z.shiftl_0_l, Z.lor_0_r. apply u64_ext. intros j Hj. rewrite Z.land_spec, Z.lnot_spec, mask_bits by lia. destruct (Z.eqb_spec k j) as [<-|]; [rewrite B0; reflexivity|rewrite andb_true_r; reflexivity].
  - replace (b mod 2) with 1 by lia. apply u64_ext. intros j Hj. rewrite !Z.lor_spec, mask_bits, shiftl1_bits by lia. reflexivity.
Qed.
Lemma or_bit_error v n x : kept (kind_of v) x = None -> or_bit v n x = Error.
Proof. destruct v, x; cbn; congruence. Qed.
Lemma kept_none_list x : kept KList x = Some x. Proof. destruct x; reflexivity. Qed.

Lemma pop_ok : forall stack v, wf_vec v -> (length stack <= vecsize v)%nat -> (forall i, (i < length stack)%nat -> nth i (elements v) (Int 0) = blank (kind_of v)) ->
  match keep_all (kind_of v) stack with
  | Some ys => exists v', pop_into stack v = Ret v' /\ wf_vec v' /\ kind_of v' = kind_of v /\ vecsize v' = vecsize v /\
      forall m, (m < vecsize v)%nat -> nth m (elements v') (Int 0) = if (m <? length stack)%nat then nth (length stack - 1 - m) ys (Int 0) else nth m (elements v) (Int 0)
  | None => pop_into stack v = Error
  end.
Proof.
  induction stack as [|x r IH]; intros v W H B; cbn [keep_all pop_into length].
  - exists v. repeat (split; [auto|]). intros m Hm. destruct (Nat.ltb_spec m 0); [lia|reflexivity].
  - cbn [length] in H, B. destruct (kept (kind_of v) x) as [y|] eqn:K; [|rewrite or_bit_error by exact K; reflexivity].
    assert (or_bit v (length r) x = fastvset v (length r) x) as Eo. { apply or_bit_set; [exact W|lia|]. intros Kb. rewrite B by lia. rewrite Kb. reflexivity. }
    rewrite Eo. destruct (put_ok v (length r) x y W K) as (v1 & E1 & U1 & W1 & S1 & K1); [lia|]. rewrite E1. cbn [bind].
    specialize (IH v1 W1). rewrite S1, K1 in IH. assert (length r < length (elements v))%nat as Hl by (rewrite elements_length by exact W; lia).
    specialize (IH ltac:(lia)). specialize (IH ltac:(intros i Hi; rewrite U1, update_nth by exact Hl; destruct (Nat.eqb_spec i (length r)); [lia|]; apply B; lia)).
    destruct (keep_all (kind_of v) r) as [ys|]; [|exact IH]. destruct IH as (v' & E' & W' & K' & S' & H'). exists v'. repeat (split; [auto|]). intros m Hm. rewrite H' by exact Hm.
    rewrite U1, update_nth by exact Hl. destruct (Nat.ltb_spec m (length r)), (Nat.ltb_spec m (S (length r))), (Nat.eqb_spec m (length r)); try lia; try reflexivity.
    + replace (S (length r) - 1 - m)%nat with (S (length r - 1 - m)) by lia. reflexivity.
    + subst. replace (S (length r) - 1 - length r)%nat with 0%nat by lia. reflexivity.
Qed.
Lemma keep_app k a b : keep_all k (a ++ b) = match keep_all k a, keep_all k b with Some x, Some y => Some (x ++ y) | _, _ => None end.
Proof. induction a as [|x a IH]; cbn [app keep_all]; [destruct (keep_all k b); reflexivity|]. rewrite IH. destruct (kept k x), (keep_all k a), (keep_all k b); reflexivity. Qed.
Lemma keep_rev k a : keep_all k (rev a) = option_map (@rev value) (keep_all k a).
Proof. induction a as [|x a IH]; [reflexivity|]. cbn [rev]. rewrite keep_app, IH. cbn [keep_all]. destruct (kept k x), (keep_all k a); reflexivity. Qed.
Lemma keep_length k : forall a b, keep_all k a = Some b -> length b = length a.
Proof. induction a as [|x a IH]; intros b; cbn [keep_all]; [intros [= <-]; reflexivity|]. destruct (kept k x), (keep_all k a) eqn:E; intros [= <-]. cbn. f_equal. apply IH. reflexivity. Qed.
Lemma keep_list a : keep_all KList a = Some a.
Proof. induction a as [|x a IH]; [reflexivity|]. cbn [keep_all]. rewrite IH, kept_none_list. reflexivity. Qed.
Lemma makesequence_ok k vals : makes k vals (makesequence k vals).
Proof.
  unfold makes, makesequence. destruct k eqn:Ek; [rewrite keep_list; exists (Lst vals); repeat (split; [reflexivity || exact Logic.I || discriminate|]); reflexivity|..]; rewrite <- Ek in *;
  (destruct (makevector_ok k (Z.of_nat (length vals))) as (r & Er & Wr & Kr & Sr & Br); [congruence|lia|]); rewrite Er; cbn [bind]; rewrite Nat2Z.id in *;
  pose proof (pop_ok (rev vals) r Wr) as P; rewrite rev_length, Sr, Kr, keep_rev in P; specialize (P ltac:(lia) Br);
  (destruct (keep_all k vals) as [l|] eqn:El; cbn [option_map] in P; [|rewrite P; reflexivity]);
  destruct P as (v' & E' & W' & K' & S' & H'); rewrite E'; cbn [bind]; exists (Vec v'); (split; [reflexivity|]); (split; [exact W'|]); (split; [exact K'|]); (split; [discriminate|]);
  pose proof (keep_length _ _ _ El) as Ll; apply (nth_ext' _ _ (Int 0)); cbn [contents]; rewrite ?elements_length by exact W'; try congruence;
  intros i Hi; rewrite H' by lia; (destruct (Nat.ltb_spec i (length vals)); [|lia]); rewrite rev_nth by lia; f_equal; lia.
Qed.
Lemma concatenate_ok k qs : qs <> [] -> Forall proper qs -> Forall to_end qs -> makes k (concat (map contents qs)) (CONCATENATE k qs).
Proof. intros N P T. replace (CONCATENATE k qs) with (do l <- push_all qs; makesequence k l) by (destruct qs; [congruence|reflexivity]). rewrite push_all_ok by assumption. cbn [bind]. apply makesequence_ok. Qed.
Lemma coerce_ok k q : proper q -> makes k (contents q) (COERCE q k).
Proof.
  intros P. unfold COERCE. destruct q as [l|v|a]; [rewrite push_ok by (cbn; auto); apply makesequence_ok..|].
  destruct P as (W & d & Ed & H1 & H2 & H3). cbn [contents]. rewrite Ed. cbn [nth]. rewrite push_vec_ok by (auto; lia). cbn [limited bind]. rewrite Z.min_r by lia. apply makesequence_ok.
Qed.

(** FILL *)
Definition refilled (v v' : vec) (s e : Z) (y : value) : Prop :=
  wf_vec v' /\ kind_of v' = kind_of v /\ vecsize v' = vecsize v /\
  forall m, (m < vecsize v)%nat -> nth m (elements v') (Int 0) = if (s <=? Z.of_nat m) && (Z.of_nat m <? e) then y else nth m (elements v) (Int 0).
Lemma fill_run_ok v s e x y : wf_vec v -> kept (kind_of v) x = Some y -> 0 <= s -> e <= Z.of_nat (vecsize v) -> exists v', fill_run v s e x = Ret v' /\ refilled v v' s e y.
Proof.
  intros W K Hs He. unfold fill_run.
  destruct (loop_inv (fun j t => wf_vec t /\ kind_of t = kind_of v /\ vecsize t = vecsize v /\ forall m, (m < vecsize v)%nat -> nth m (elements t) (Int 0) = if (s <=? Z.of_nat m) && (Z.of_nat m <? s + Z.of_nat j) then y else nth m (elements v) (Int 0))
    (fun i v => set v (s + Z.of_nat i) x) (Z.to_nat (e - s)) 0 v) as (v' & E & W' & K' & S' & H').
  - repeat (split; [auto|]). intros m Hm. destruct (Z.leb_spec s (Z.of_nat m)), (Z.ltb_spec (Z.of_nat m) (s + Z.of_nat 0)); try lia; reflexivity.
  - intros j t Hj (Wt & Kt & St & Ht). destruct (set_ok t (s + Z.of_nat j) x y Wt) as (t' & Et & Ut & Wt' & St' & Kt'); [congruence|lia|]. exists t'. split; [exact Et|]. split; [exact Wt'|]. split; [congruence|]. split; [congruence|].
    intros m Hm. rewrite Ut, update_nth by (rewrite elements_length by exact Wt; lia). rewrite Ht by exact Hm.
    destruct (Nat.eqb_spec m (Z.to_nat (s + Z.of_nat j))), (Z.leb_spec s (Z.of_nat m)), (Z.ltb_spec (Z.of_nat m) (s + Z.of_nat j)), (Z.ltb_spec (Z.of_nat m) (s + Z.of_nat (S j))); try lia; reflexivity.
  - exists v'. split; [exact E|]. split; [exact W'|]. split; [exact K'|]. split; [exact S'|]. intros m Hm. rewrite H' by exact Hm.
    destruct (Z.leb_spec s (Z.of_nat m)), (Z.ltb_spec (Z.of_nat m) (s + Z.of_nat (0 + Z.to_nat (e - s)))), (Z.ltb_spec (Z.of_nat m) e); try lia; reflexivity.
Qed.
Lemma set_word_ok v i (b : bool) : wf_vec v -> kind_of v = KBit -> 0 <= i -> 64 * i + 64 <= Z.of_nat (vecsize v) ->
  exists v', set_word v i (if b then 2 ^ 64 - 1 else 0) = Ret v' /\ refilled v v' (64 * i) (64 * i + 64) (Int (b2z b)).
Proof.
  intros W K Hi Hs. destruct v as [s ws|s bs|ws|vs]; try discriminate. cbn [set_word vecsize] in *. destruct (Z.ltb_spec i 0); [lia|]. destruct W as [W1 W2].
  assert (Z.to_nat i < length ws)%nat as Hl. { rewrite W1. replace (Z.to_nat i) with ((64 * Z.to_nat i) / 64)%nat by (rewrite Nat.mul_comm, Nat.div_mul; lia). apply div64_lt. lia. }
  rewrite store_ok by exact Hl. cbn [bind]. eexists. split; [reflexivity|]. split; [|split; [reflexivity|split; [reflexivity|]]].
  - split; [rewrite update_length; exact W1|]. apply update_Forall; [exact W2|]. destruct b; lia.
  - cbn [vecsize]. intros m Hm. rewrite !bit_nth by exact Hm. unfold word_bit. rewrite update_nth by exact Hl. pose proof (Nat.div_mod m 64 ltac:(lia)) as Dm. pose proof (mod64 m).
    destruct (Nat.eqb_spec (m / 64) (Z.to_nat i)) as [E|E], (Z.leb_spec (64 * i) (Z.of_nat m)), (Z.ltb_spec (Z.of_nat m) (64 * i + 64)); try (exfalso; lia); cbn [andb]; try reflexivity.
    destruct b; [|rewrite Z.bits_0; reflexivity]. replace (2 ^ 64 - 1) with (Z.ones 64) by reflexivity. rewrite Z.ones_spec_low by lia. reflexivity.
Qed.
Lemma words_ok v s c (b : bool) : wf_vec v -> kind_of v = KBit -> 0 <= s -> c = 0%nat \/ 64 * (s + Z.of_nat c) <= Z.of_nat (vecsize v) ->
  exists v', loop c 0 (fun i v => set_word v (s + Z.of_nat i) (if b then 2 ^ 64 - 1 else 0)) v = Ret v' /\ refilled v v' (64 * s) (64 * (s + Z.of_nat c)) (Int (b2z b)).
Proof.
  intros W K Hs H. apply (loop_inv (fun j t => refilled v t (64 * s) (64 * (s + Z.of_nat j)) (Int (b2z b)))).
  - repeat (split; [auto|]). intros m Hm. destruct (Z.leb_spec (64 * s) (Z.of_nat m)), (Z.ltb_spec (Z.of_nat m) (64 * (s + Z.of_nat 0))); try lia; reflexivity.
  - intros j t Hj (Wt & Kt & St & Ht). destruct (set_word_ok t (s + Z.of_nat j) b Wt) as (t' & Et & Wt' & Kt' & St' & Ht'); [congruence|lia|lia|]. exists t'. split; [exact Et|]. split; [exact Wt'|]. split; [congruence|]. split; [congruence|].
    intros m Hm. rewrite Ht' by lia. rewrite Ht by exact Hm.
    destruct (Z.leb_spec (64 * (s + Z.of_nat j)) (Z.of_nat m)), (Z.ltb_spec (Z.of_nat m) (64 * (s + Z.of_nat j) + 64)), (Z.leb_spec (64 * s) (Z.of_nat m)), (Z.ltb_spec (Z.of_nat m) (64 * (s + Z.of_nat j))), (Z.ltb_spec (Z.of_nat m) (64 * (s + Z.of_nat (S j)))); try lia; reflexivity.
Qed.
Lemma fill_vec_ok v x y s e : wf_vec v -> kept (kind_of v) x = Some y -> (kind_of v = KBit -> y = x) -> 0 <= s -> e <= Z.of_nat (vecsize v) ->
  exists v', fill_vec v x s e = Ret v' /\ refilled v v' s e y.
Proof.
  intros W K B Hs He. destruct v as [n ws|n bs|ws|vs] eqn:Ev; rewrite <- Ev in *.
  - assert (kind_of v = KBit) as Kb by (rewrite Ev; reflexivity). specialize (B Kb). subst y. rewrite Kb in K. assert (exists b : bool, x = Int (b2z b)) as (b & ->).
    { pose proof (kept_fits _ _ _ K) as F. destruct x as [z|]; [|destruct F]. destruct F as [->| ->]; [exists false|exists true]; reflexivity. }
    unfold fill_vec. rewrite Ev, <- Ev. set (head := Z.min e (64 * ((s + 63) / 64))). set (s1 := Z.max s head). set (c := Z.max 0 ((e - s1) / 64)).
    assert (s <= 64 * ((s + 63) / 64) < s + 64) as R. { pose proof (Z.div_mod (s + 63) 64 ltac:(lia)) as D. pose proof (Z.mod_pos_bound (s + 63) 64). lia. }
    destruct (fill_run_ok v s head (Int (b2z b)) (Int (b2z b)) W) as (v1 & E1 & W1 & K1 & S1 & H1); [rewrite Kb; exact K|exact Hs|lia|]. rewrite E1. cbn [bind coerceintval]. rewrite wrap64_id by (destruct b; cbn; unfold in_long; lia).
    replace (if b2z b =? 0 then 0 else 2 ^ 64 - 1) with (if b then 2 ^ 64 - 1 else 0) by (destruct b; reflexivity).
    pose proof (Z.div_mod (e - s1) 64 ltac:(lia)) as D. pose proof (Z.mod_pos_bound (e - s1) 64).
    assert (c = 0 \/ 64 * (s1 / 64) = s1 /\ s1 = head /\ s1 + 64 * c <= e) as Hc.
    { destruct (Z.le_gt_cases ((e - s1) / 64) 0); [left; unfold c; lia|]. right. assert (s1 = 64 * ((s + 63) / 64)) as E by (unfold s1, head in *; lia). split; [|split; [unfold s1, head in *; lia|unfold c; lia]]. rewrite E. rewrite (Z.mul_comm 64 ((s + 63) / 64)), Z.div_mul by lia. lia. }
    destruct (words_ok v1 (s1 / 64) (Z.to_nat c) b W1) as (v2 & E2 & W2 & K2 & S2 & H2); [congruence|apply Z.div_pos; lia| |].
    { rewrite S1. lia. }
    rewrite E2. cbn [bind]. destruct (fill_run_ok v2 (s1 + c * 64) e (Int (b2z b)) (Int (b2z b)) W2) as (v3 & E3 & W3 & K3 & S3 & H3); [rewrite K2, K1, Kb; exact K|lia|lia|].
    exists v3. split; [exact E3|]. split; [exact W3|]. split; [congruence|]. split; [congruence|]. intros m Hm. rewrite H3, H2, H1 by lia.
    destruct (Z.leb_spec (s1 + c * 64) (Z.of_nat m)), (Z.ltb_spec (Z.of_nat m) e), (Z.leb_spec s (Z.of_nat m)), (Z.ltb_spec (Z.of_nat m) head), (Z.leb_spec (64 * (s1 / 64)) (Z.of_nat m)), (Z.ltb_spec (Z.of_nat m) (64 * (s1 / 64 + Z.of_nat (Z.to_nat c))));
      cbn [andb]; try reflexivity; exfalso; lia.
  - rewrite Ev in K. destruct x as [z|]; [|discriminate]. unfold fill_vec. rewrite Ev. cbn [coerceintval bind]. rewrite <- Ev. apply fill_run_ok; auto. rewrite Ev. exact K.
  - rewrite Ev in K. destruct x as [z|]; [|discriminate]. unfold fill_vec. rewrite Ev. cbn [coerceintval bind]. rewrite <- Ev. apply fill_run_ok; auto. rewrite Ev. exact K.
  - unfold fill_vec. rewrite Ev. rewrite <- Ev. apply fill_run_ok; auto.
Qed.
