(** Proofs about the base 64 coding. *)
From Verif Require Import Word StrModel StrProofs BitsProofs3 Base64Model.

(** * Specification vocabulary (RFC 4648) *)

(** A-Z a-z 0-9 + / *)
Definition alphabet : list Z := map Z.of_nat (seq 65 26 ++ seq 97 26 ++ seq 48 10) ++ [43; 47].
Definition symbol (q c : Z) : Prop := 0 <= q < 64 /\ nth_error alphabet (Z.to_nat q) = Some c.

(** Groups of three bytes, and the one or two bytes left *)
Inductive encodes : str -> str -> Prop :=
| encodes_nil : encodes [] []
| encodes_1 a q0 q1 c0 c1 : symbol q0 c0 -> symbol q1 c1 -> 64 * q0 + q1 = 16 * a ->
    encodes [a] [c0; c1; 61; 61]
| encodes_2 a b q0 q1 q2 c0 c1 c2 : symbol q0 c0 -> symbol q1 c1 -> symbol q2 c2 ->
    64 * (64 * q0 + q1) + q2 = 4 * (256 * a + b) -> encodes [a; b] [c0; c1; c2; 61]
| encodes_3 a b c r q0 q1 q2 q3 c0 c1 c2 c3 t : symbol q0 c0 -> symbol q1 c1 -> symbol q2 c2 -> symbol q3 c3 ->
    64 * (64 * (64 * q0 + q1) + q2) + q3 = 256 * (256 * a + b) + c ->
    encodes r t -> encodes (a :: b :: c :: r) (c0 :: c1 :: c2 :: c3 :: t).

(** Lines of 76 characters *)
Inductive lines : str -> str -> Prop :=
| lines_last cs : (length cs < 76)%nat -> lines cs cs
| lines_more l cs t : length l = 76%nat -> lines cs t -> lines (l ++ cs) (l ++ 10 :: t).

(** * The alphabet *)

Lemma bin2base64_ok q : 0 <= q < 64 -> exists c, bin2base64 q = Val c /\ symbol q c.
Proof.
  intros H.
  assert (A : forallb (fun n => match bin2base64 (Z.of_nat n), nth_error alphabet n with
     Val c, Some c' => c =? c' | _, _ => false end) (seq 0 64) = true) by (vm_compute; reflexivity).
  rewrite forallb_forall in A. specialize (A (Z.to_nat q)).
  rewrite in_seq in A. specialize (A ltac:(lia)). rewrite Z2Nat.id in A by lia.
  destruct (bin2base64 q) as [c| |]; [|discriminate|discriminate].
  destruct (nth_error alphabet (Z.to_nat q)) as [c'|] eqn:N; [|discriminate]. apply Z.eqb_eq in A. subst c'.
  exists c. split; [reflexivity|]. split; [exact H|exact N].
Qed.

Lemma symbol_back q c : symbol q c -> base64tobin c = Val q /\ 33 < c < 256 /\ c <> 61.
Proof.
  intros [H E].
  assert (A : forallb (fun n => match nth_error alphabet n with
     Some c => match base64tobin c with Val q => (q =? Z.of_nat n) && (33 <? c) && (c <? 256) && negb (c =? 61) | _ => false end
     | _ => false end) (seq 0 64) = true) by (vm_compute; reflexivity).
  rewrite forallb_forall in A. specialize (A (Z.to_nat q)). rewrite in_seq in A. specialize (A ltac:(lia)).
  rewrite Z2Nat.id in A by lia. rewrite E in A. destruct (base64tobin c) as [q'| |]; [|discriminate|discriminate].
  rewrite !andb_true_iff in A. destruct A as [[[A1 A2] A3] A4]. apply Z.eqb_eq in A1. apply Z.ltb_lt in A2, A3.
  apply negb_true_iff, Z.eqb_neq in A4. subst. split; [reflexivity|]. lia.
Qed.

(** * Encoding *)

(** The characters with the line feeds, after [n] characters *)
Fixpoint emit (n : Z) (cs : str) : str :=
  match cs with
  | [] => []
  | c :: r => c :: (if (n + 1) mod 76 =? 0 then 10 :: emit (n + 1) r else emit (n + 1) r)
  end.

Definition ascii (c : Z) : Prop := 0 <= c < 256.

Lemma put_counted_ok c o n : ascii c -> put_counted c (o, n) = (rev (emit n [c]) ++ o, n + 1).
Proof.
  intros A. unfold put_counted, put, emit. cbn [fst snd]. rewrite (Z.mod_small c 256) by exact A.
  destruct ((n + 1) mod 76 =? 0); reflexivity.
Qed.

Lemma emit_app n a b : emit n (a ++ b) = emit n a ++ emit (n + Z.of_nat (length a)) b.
Proof.
  revert n. induction a as [|c a IH]; intros n; [cbn [app length emit]; f_equal; lia|].
  cbn [app emit length]. rewrite IH. replace (n + Z.of_nat (S (length a))) with (n + 1 + Z.of_nat (length a)) by lia.
  destruct ((n + 1) mod 76 =? 0); reflexivity.
Qed.

Definition put_all (cs : str) (st : str * Z) : str * Z := fold_left (fun st c => put_counted c st) cs st.

Lemma put_all_ok cs o n : Forall ascii cs -> put_all cs (o, n) = (rev (emit n cs) ++ o, n + Z.of_nat (length cs)).
Proof.
  intros F. revert o n. induction F as [|c cs A F IH]; intros o n; [cbn; f_equal; lia|].
  cbn [put_all fold_left]. rewrite put_counted_ok by exact A. fold (put_all cs (rev (emit n [c]) ++ o, n + 1)). rewrite IH.
  rewrite (emit_app n [c] cs : emit n (c :: cs) = _). rewrite rev_app_distr, <- app_assoc. cbn [length]. f_equal. lia.
Qed.

Ltac bits := rewrite ?Z.shiftr_div_pow2, ?Z.shiftl_mul_pow2 by lia;
  repeat match goal with
  | |- context [Z.land ?x 3] => change (Z.land x 3) with (Z.land x (Z.ones 2)); rewrite (Z.land_ones x 2) by lia
  | |- context [Z.land ?x 15] => change (Z.land x 15) with (Z.land x (Z.ones 4)); rewrite (Z.land_ones x 4) by lia
  | |- context [Z.land ?x 63] => change (Z.land x 63) with (Z.land x (Z.ones 6)); rewrite (Z.land_ones x 6) by lia
  end;
  change (2 ^ 2) with 4; change (2 ^ 4) with 16; change (2 ^ 6) with 64.

Ltac sextet x := destruct (bin2base64_ok x ltac:(Z.to_euclidean_division_equations; lia)) as (? & ? & ?).

Lemma enc_loop_ok : forall s fuel st, bytes s -> (4 * length s <= fuel)%nat ->
  exists mode cs, enc_loop fuel s 0 st = Some (Val (mode, put_all cs st)) /\
    encodes s (if mode =? 0 then cs else if mode <? 3 then cs ++ [61; 61] else cs ++ [61]) /\ (mode = 0 \/ mode = 2 \/ mode = 3).
Proof.
  assert (G : forall n s fuel st, (length s <= n)%nat -> bytes s -> (4 * length s <= fuel)%nat ->
    exists mode cs, enc_loop fuel s 0 st = Some (Val (mode, put_all cs st)) /\
      encodes s (if mode =? 0 then cs else if mode <? 3 then cs ++ [61; 61] else cs ++ [61]) /\ (mode = 0 \/ mode = 2 \/ mode = 3)).
  2: { intros s fuel st. apply (G (length s)). lia. }
  induction n as [|n IH]; intros s fuel st L B F.
  - destruct s; [|cbn [length] in L; lia]. exists 0, []. split; [destruct fuel; reflexivity|]. split; [constructor|left; reflexivity].
  - destruct s as [|a [|b [|c r]]]; cbn [length] in F, L.
    + exists 0, []. split; [destruct fuel; reflexivity|]. split; [constructor|left; reflexivity].
    + inversion B as [|x1 y1 Ha B1]; subst.
      destruct fuel as [|[|fuel]]; [lia|lia|].
      destruct (bin2base64_ok (a / 4)) as (c0 & E0 & S0); [Z.to_euclidean_division_equations; lia|].
      destruct (bin2base64_ok (a mod 4 * 16)) as (c1 & E1 & S1); [Z.to_euclidean_division_equations; lia|].
      exists 2, [c0; c1]. split; [|split; [|right; left; reflexivity]].
      * cbn [enc_loop Z.eqb Pos.eqb fst snd]. bits. rewrite E0.
        change ((0 + 1) mod 4) with 1. cbn [enc_loop Z.eqb Pos.eqb fst snd]. bits. rewrite E1.
        change ((1 + 1) mod 4) with 2. destruct fuel; reflexivity.
      * cbn [Z.eqb Z.ltb Z.compare Pos.compare Pos.compare_cont app]. eapply encodes_1; [exact S0|exact S1|].
        Z.to_euclidean_division_equations; lia.
    + inversion B as [|x1 y1 Ha B1]; subst. inversion B1 as [|x2 y2 Hb B2]; subst.
      destruct fuel as [|[|[|fuel]]]; [lia|lia|lia|].
      destruct (bin2base64_ok (a / 4)) as (c0 & E0 & S0); [Z.to_euclidean_division_equations; lia|].
      destruct (bin2base64_ok (a mod 4 * 16 + b / 16)) as (c1 & E1 & S1); [Z.to_euclidean_division_equations; lia|].
      destruct (bin2base64_ok (b mod 16 * 4)) as (c2 & E2 & S2); [Z.to_euclidean_division_equations; lia|].
      exists 3, [c0; c1; c2]. split; [|split; [|right; right; reflexivity]].
      * cbn [enc_loop Z.eqb Pos.eqb fst snd]. bits. rewrite E0.
        change ((0 + 1) mod 4) with 1. cbn [enc_loop Z.eqb Pos.eqb fst snd]. bits. rewrite E1.
        change ((1 + 1) mod 4) with 2. cbn [enc_loop Z.eqb Pos.eqb fst snd]. bits. rewrite E2.
        change ((2 + 1) mod 4) with 3. destruct fuel; reflexivity.
      * cbn [Z.eqb Z.ltb Z.compare Pos.compare Pos.compare_cont app]. eapply encodes_2; [exact S0|exact S1|exact S2|].
        Z.to_euclidean_division_equations; lia.
    + inversion B as [|x1 y1 Ha B1]; subst. inversion B1 as [|x2 y2 Hb B2]; subst. inversion B2 as [|x3 y3 Hc B3]; subst.
      destruct fuel as [|[|[|[|fuel]]]]; [lia|lia|lia|lia|].
      destruct (bin2base64_ok (a / 4)) as (c0 & E0 & S0); [Z.to_euclidean_division_equations; lia|].
      destruct (bin2base64_ok (a mod 4 * 16 + b / 16)) as (c1 & E1 & S1); [Z.to_euclidean_division_equations; lia|].
      destruct (bin2base64_ok (b mod 16 * 4 + c / 64)) as (c2 & E2 & S2); [Z.to_euclidean_division_equations; lia|].
      destruct (bin2base64_ok (c mod 64)) as (c3 & E3 & S3); [Z.to_euclidean_division_equations; lia|].
      destruct (IH r fuel (put_counted c3 (put_counted c2 (put_counted c1 (put_counted c0 st)))) ltac:(lia) B3 ltac:(lia))
        as (mode & cs & E & En & M).
      exists mode, (c0 :: c1 :: c2 :: c3 :: cs). split; [|split; [|exact M]].
      * cbn [enc_loop Z.eqb Pos.eqb fst snd]. bits. rewrite E0.
        change ((0 + 1) mod 4) with 1. cbn [enc_loop Z.eqb Pos.eqb fst snd]. bits. rewrite E1.
        change ((1 + 1) mod 4) with 2. cbn [enc_loop Z.eqb Pos.eqb fst snd]. bits. rewrite E2.
        change ((2 + 1) mod 4) with 3. cbn [enc_loop Z.eqb Pos.eqb fst snd]. bits. rewrite E3.
        change ((3 + 1) mod 4) with 0. rewrite E. reflexivity.
      * match goal with |- encodes _ ?t =>
          replace t with (c0 :: c1 :: c2 :: c3 :: (if mode =? 0 then cs else if mode <? 3 then cs ++ [61; 61] else cs ++ [61]))
          by (destruct (mode =? 0); [reflexivity|destruct (mode <? 3); reflexivity]) end.
        eapply encodes_3; [exact S0|exact S1|exact S2|exact S3| |exact En].
        Z.to_euclidean_division_equations; lia.
Qed.

Lemma encodes_ascii s t : encodes s t -> Forall (fun c => 33 < c < 256) t.
Proof.
  assert (P : 33 < 61 < 256) by lia.
  intros E. induction E as [|a q0 q1 c0 c1 S0 S1 _|a b q0 q1 q2 c0 c1 c2 S0 S1 S2 _|a b c r q0 q1 q2 q3 c0 c1 c2 c3 t S0 S1 S2 S3 _ E IH].
  - constructor.
  - apply symbol_back in S0, S1. repeat (constructor; [solve [tauto|exact P]|]). constructor.
  - apply symbol_back in S0, S1, S2. repeat (constructor; [solve [tauto|exact P]|]). constructor.
  - apply symbol_back in S0, S1, S2, S3. repeat (constructor; [tauto|]). exact IH.
Qed.

Lemma emit_short : forall n cs, 0 <= n mod 76 -> n mod 76 + Z.of_nat (length cs) < 76 -> emit n cs = cs.
Proof.
  intros n cs H. revert n H. induction cs as [|c cs IH]; intros n H L; [reflexivity|]. cbn [emit length] in *.
  assert (M : (n + 1) mod 76 = n mod 76 + 1) by (Z.to_euclidean_division_equations; lia).
  destruct (Z.eqb_spec ((n + 1) mod 76) 0) as [E|_]; [lia|]. rewrite IH by lia. reflexivity.
Qed.

Lemma emit_lines : forall k n cs, (length cs < k)%nat -> n mod 76 = 0 -> lines cs (emit n cs).
Proof.
  induction k as [|k IH]; intros n cs L M; [lia|].
  destruct (Nat.lt_ge_cases (length cs) 76) as [S|S].
  - rewrite emit_short by lia. apply lines_last. exact S.
  - rewrite <- (firstn_skipn 76 cs).
    assert (L76 : length (firstn 76 cs) = 76%nat) by (rewrite firstn_length; lia).
    destruct (firstn 76 cs) as [|c0 l0] eqn:F using rev_ind; [discriminate|]. clear IHl0.
    rewrite app_length in L76. cbn [length] in L76.
    rewrite !emit_app. rewrite emit_short by lia. cbn [emit].
    replace ((n + Z.of_nat (length l0) + 1) mod 76) with 0 by (Z.to_euclidean_division_equations; lia).
    cbn [Z.eqb].
    match goal with |- lines _ ?t =>
      replace t with ((l0 ++ [c0]) ++ 10 :: emit (n + Z.of_nat (length (l0 ++ [c0]))) (skipn 76 cs))
      by (rewrite <- !app_assoc; reflexivity) end.
    apply lines_more; [rewrite app_length; cbn [length]; lia|].
    apply IH; [rewrite skipn_length; lia|]. rewrite app_length. cbn [length].
    Z.to_euclidean_division_equations; lia.
Qed.

Theorem encode_ok s : bytes s -> exists cs t, base64encode s = Val t /\ encodes s cs /\ lines cs t.
Proof.
  intros B. unfold base64encode. destruct (enc_loop_ok s (4 * length s) ([], 0) B (le_n _)) as (mode & cs & E & En & M).
  rewrite E. cbn [bind fst snd].
  set (cs' := if mode =? 0 then cs else if mode <? 3 then cs ++ [61; 61] else cs ++ [61]) in *.
  assert (X : (if mode >? 0 then let st := put_counted 61 (put_all cs ([], 0)) in if mode <? 3 then put_counted 61 st else st
    else put_all cs ([], 0)) = put_all cs' ([], 0)).
  { unfold cs', put_all. destruct M as [M|[M|M]]; rewrite M; cbn [Z.gtb Z.ltb Z.eqb Z.compare Pos.compare Pos.compare_cont];
    rewrite ?fold_left_app; reflexivity. }
  cbv zeta in X |- *. cbn [fst snd]. rewrite X. exists cs', (emit 0 cs'). split; [|split; [exact En|]].
  - rewrite put_all_ok.
    + cbn [fst]. rewrite app_nil_r, rev_involutive. reflexivity.
    + apply encodes_ascii in En. eapply Forall_impl; [|exact En]. intros c Hc. unfold ascii. cbn beta in Hc. lia.
  - apply (emit_lines (S (length cs'))); [lia|reflexivity].
Qed.

(** * Decoding *)

Definition visible (c : Z) : bool := c >? 33.

Lemma dec_loop_filter t : forall x mode o, dec_loop t x mode o = dec_loop (filter visible t) x mode o.
Proof.
  induction t as [|a t IH]; intros x mode o; [reflexivity|]. cbn [filter]. unfold visible at 1.
  destruct (a >? 33) eqn:V.
  - cbn [dec_loop]. rewrite V. destruct (negb (a =? 61)); cbn [andb]; [|apply IH].
    destruct (base64tobin a); cbn [bind]; [apply IH|reflexivity|reflexivity].
  - cbn [dec_loop]. rewrite V. cbn [andb]. apply IH.
Qed.

Lemma dec_symbol c q t x mode o : symbol q c ->
  dec_loop (c :: t) x mode o =
    (let xo :=
          if mode =? 0 then (Z.shiftl q 2, o)
          else if mode =? 1 then (Z.shiftl (Z.land q 15) 4, put (Z.lor x (Z.shiftr q 4)) o)
          else if mode =? 2 then (Z.shiftl (Z.land q 3) 6, put (Z.lor x (Z.shiftr q 2)) o)
          else (Z.lor x q, put (Z.lor x q) o) in
        dec_loop t (fst xo) ((mode + 1) mod 4) (snd xo)).
Proof.
  intros S. destruct (symbol_back _ _ S) as (E & R & N). cbn [dec_loop]. rewrite Z.gtb_ltb.
  destruct (Z.ltb_spec 33 c); [|lia]. destruct (Z.eqb_spec c 61); [contradiction|]. cbn [andb negb]. rewrite E. reflexivity.
Qed.

Lemma lor_hi a b n : 0 <= n -> 0 <= a < 2 ^ n -> Z.lor (b * 2 ^ n) a = a + b * 2 ^ n.
Proof. intros. rewrite Z.lor_comm. apply lor_disjoint; assumption. Qed.

Theorem decode_ok s cs t : bytes s -> encodes s cs -> filter visible t = cs ->
  base64decode t = Val (s ++ if (length s mod 3 =? 0)%nat then [] else [0]).
Proof.
  intros B E F. unfold base64decode. rewrite dec_loop_filter, F. clear F t.
  assert (G : forall x o, exists x' mode, dec_loop cs x 0 o = Val (x', mode, rev s ++ o) /\
    ((length s mod 3 = 0)%nat /\ mode = 0 \/ (length s mod 3 <> 0)%nat /\ mode > 0 /\ x' = 0)).
  { induction E as [|a q0 q1 c0 c1 S0 S1 V|a b q0 q1 q2 c0 c1 c2 S0 S1 S2 V|a b c r q0 q1 q2 q3 c0 c1 c2 c3 t S0 S1 S2 S3 V E IH];
      intros x o.
    - exists x, 0. split; [reflexivity|]. left. split; reflexivity.
    - inversion B as [|x1 y1 Ha B1]; subst. destruct (proj1 S0), (proj1 S1).
      rewrite (dec_symbol _ _ _ _ _ _ S0). cbn [Z.eqb fst snd]. change ((0 + 1) mod 4) with 1.
      rewrite (dec_symbol _ _ _ _ _ _ S1). cbn [Z.eqb Pos.eqb fst snd]. change ((1 + 1) mod 4) with 2. bits.
      cbn [dec_loop Z.gtb Z.compare Pos.compare Pos.compare_cont Z.eqb Pos.eqb negb andb].
      exists (q1 mod 16 * 16), 2. split.
      + f_equal. f_equal. unfold put. change 4 with (2 ^ 2). rewrite lor_hi by (cbn [Z.pow Z.pow_pos Pos.iter]; Z.to_euclidean_division_equations; lia).
        cbn [rev app]. f_equal. change (2 ^ 2) with 4. Z.to_euclidean_division_equations; lia.
      + right. split; [discriminate|]. split; [lia|]. Z.to_euclidean_division_equations; lia.
    - inversion B as [|x1 y1 Ha B1]; subst. inversion B1 as [|x2 y2 Hb B2]; subst. destruct (proj1 S0), (proj1 S1), (proj1 S2).
      rewrite (dec_symbol _ _ _ _ _ _ S0). cbn [Z.eqb fst snd]. change ((0 + 1) mod 4) with 1.
      rewrite (dec_symbol _ _ _ _ _ _ S1). cbn [Z.eqb Pos.eqb fst snd]. change ((1 + 1) mod 4) with 2.
      rewrite (dec_symbol _ _ _ _ _ _ S2). cbn [Z.eqb Pos.eqb fst snd]. change ((2 + 1) mod 4) with 3. bits.
      cbn [dec_loop Z.gtb Z.compare Pos.compare Pos.compare_cont Z.eqb Pos.eqb negb andb].
      exists (q2 mod 4 * 64), 3. split.
      + f_equal. f_equal. unfold put.
        change (q0 * 4) with (q0 * 2 ^ 2). change (q1 mod 16 * 16) with (q1 mod 16 * 2 ^ 4).
        rewrite !lor_hi by (cbn [Z.pow Z.pow_pos Pos.iter]; Z.to_euclidean_division_equations; lia).
        change (2 ^ 2) with 4. change (2 ^ 4) with 16.
        cbn [rev app]. f_equal; [|f_equal]; Z.to_euclidean_division_equations; lia.
      + right. split; [discriminate|]. split; [lia|]. Z.to_euclidean_division_equations; lia.
    - inversion B as [|x1 y1 Ha B1]; subst. inversion B1 as [|x2 y2 Hb B2]; subst. inversion B2 as [|x3 y3 Hc B3]; subst.
      destruct (proj1 S0), (proj1 S1), (proj1 S2), (proj1 S3).
      rewrite (dec_symbol _ _ _ _ _ _ S0). cbn [Z.eqb fst snd]. change ((0 + 1) mod 4) with 1.
      rewrite (dec_symbol _ _ _ _ _ _ S1). cbn [Z.eqb Pos.eqb fst snd]. change ((1 + 1) mod 4) with 2.
      rewrite (dec_symbol _ _ _ _ _ _ S2). cbn [Z.eqb Pos.eqb fst snd]. change ((2 + 1) mod 4) with 3.
      rewrite (dec_symbol _ _ _ _ _ _ S3). cbn [Z.eqb Pos.eqb fst snd]. change ((3 + 1) mod 4) with 0. bits.
      match goal with |- context [dec_loop t ?x 0 ?o] => destruct (IH B3 x o) as (x' & mode & D & M) end.
      exists x', mode. split.
      + rewrite D. f_equal. f_equal. cbn [rev]. rewrite <- !app_assoc. f_equal. unfold put.
        change (q0 * 4) with (q0 * 2 ^ 2). change (q1 mod 16 * 16) with (q1 mod 16 * 2 ^ 4). change (q2 mod 4 * 64) with (q2 mod 4 * 2 ^ 6).
        rewrite !lor_hi by (cbn [Z.pow Z.pow_pos Pos.iter]; Z.to_euclidean_division_equations; lia).
        change (2 ^ 2) with 4. change (2 ^ 4) with 16. change (2 ^ 6) with 64.
        cbn [app]. f_equal; [|f_equal; [|f_equal]]; Z.to_euclidean_division_equations; lia.
      + replace (length (a :: b :: c :: r) mod 3)%nat with (length r mod 3)%nat; [exact M|].
        cbn [length]. replace (S (S (S (length r)))) with (length r + 1 * 3)%nat by lia. rewrite Nat.mod_add by lia. reflexivity. }
  destruct (G 0 []) as (x' & mode & D & M). rewrite D. cbn [bind fst snd]. rewrite app_nil_r.
  destruct M as [(L & ->)|(L & M & ->)].
  - rewrite L. cbn [Nat.eqb Z.gtb Z.compare]. rewrite rev_involutive, app_nil_r. reflexivity.
  - destruct (Nat.eqb_spec (length s mod 3) 0); [contradiction|]. destruct (mode >? 0) eqn:P; [|lia].
    unfold put. rewrite Z.mod_0_l by lia. cbn [rev]. rewrite rev_involutive. reflexivity.
Qed.

Lemma lines_visible cs t : lines cs t -> Forall (fun c => 33 < c < 256) cs -> filter visible t = cs.
Proof.
  assert (G : forall l : str, Forall (fun c => 33 < c < 256) l -> filter visible l = l).
  { intros l H. induction H as [|c l H F IH]; [reflexivity|]. cbn [filter]. unfold visible at 1. rewrite Z.gtb_ltb.
    destruct (Z.ltb_spec 33 c); [|lia]. rewrite IH. reflexivity. }
  intros L. induction L as [cs L|l cs t L E IH]; intros F; [apply G; exact F|].
  apply Forall_app in F. destruct F as [F1 F2]. rewrite filter_app, G by exact F1. cbn [filter].
  replace (visible 10) with false by reflexivity. rewrite IH by exact F2. reflexivity.
Qed.

Theorem encode_decode s : bytes s -> exists t, base64encode s = Val t /\
  base64decode t = Val (s ++ if (length s mod 3 =? 0)%nat then [] else [0]).
Proof.
  intros B. destruct (encode_ok s B) as (cs & t & E & En & L). exists t. split; [exact E|].
  apply (decode_ok s cs t B En). apply lines_visible; [exact L|]. apply (encodes_ascii s). exact En.
Qed.

Lemma decode_refuted : exists s t u, bytes s /\ base64encode s = Val t /\ base64decode t = Val u /\ u <> s.
Proof.
  exists [65], [81; 81; 61; 61], [65; 0]. split; [constructor; [lia|constructor]|].
  split; [vm_compute; reflexivity|]. split; [vm_compute; reflexivity|discriminate].
Qed.
