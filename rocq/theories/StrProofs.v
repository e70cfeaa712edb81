(** Proofs about the string functions. *)
From Verif Require Import Word StrModel.

(** * Specification vocabulary *)

Definition bytes (s : str) : Prop := Forall (fun c => 0 <= c < 256) s.
Definition no_nul (s : str) : Prop := ~ In 0 s.

(** Lexicographic order: at the first difference [a] has ended or has the smaller character. *)
Definition lex_lt (a b : str) : Prop :=
  exists p, (exists y b', a = p /\ b = p ++ y :: b') \/
            (exists x a' y b', a = p ++ x :: a' /\ b = p ++ y :: b' /\ x < y).

(** The part of a string between two indices *)
Definition part (s : str) (b e : Z) : str := firstn (Z.to_nat (e - b)) (skipn (Z.to_nat b) s).

(** Equal up to the case of ASCII letters *)
Definition same_letter (x y : Z) : Prop :=
  x = y \/ (65 <= x <= 90 /\ y = x + 32) \/ (65 <= y <= 90 /\ x = y + 32).

(** What is left of [s] without the [bag] characters at both ends *)
Definition trimmed_left (bag s r : str) : Prop :=
  exists l, s = l ++ r /\ Forall (fun c => In c bag) l /\ (forall c r', r = c :: r' -> ~ In c bag).
Definition trimmed_right (bag s r : str) : Prop :=
  exists t, s = r ++ t /\ Forall (fun c => In c bag) t /\ (forall c r', r = r' ++ [c] -> ~ In c bag).
Definition trimmed (bag s r : str) : Prop :=
  exists l t, s = l ++ r ++ t /\ Forall (fun c => In c bag) l /\ Forall (fun c => In c bag) t /\
    (forall c r', r = c :: r' -> ~ In c bag) /\ (forall c r', r = r' ++ [c] -> ~ In c bag).

(** * Comparison *)

Lemma strcmp_spec a : bytes a -> no_nul a -> forall b, bytes b -> no_nul b ->
  (strcmp a b = -1 /\ lex_lt a b) \/ (strcmp a b = 0 /\ a = b) \/ (strcmp a b = 1 /\ lex_lt b a).
Proof.
  unfold no_nul. induction a as [|x a IH]; intros Ba Na b Bb Nb.
  - destruct b as [|y b]; [right; left; split; reflexivity|].
    cbn [strcmp]. destruct (Z.eqb_spec y 0) as [->|]; [exfalso; apply Nb; left; reflexivity|].
    left. split; [reflexivity|]. exists []. left. exists y, b. split; reflexivity.
  - destruct b as [|y b].
    + cbn [strcmp]. destruct (Z.eqb_spec x 0) as [->|]; [exfalso; apply Na; left; reflexivity|].
      right. right. split; [reflexivity|]. exists []. left. exists x, a. split; reflexivity.
    + cbn [strcmp]. inversion Ba; subst. inversion Bb; subst.
      destruct (Z.eqb_spec x y) as [<-|D].
      * destruct (Z.eqb_spec x 0) as [->|]; [exfalso; apply Na; left; reflexivity|].
        destruct (IH ltac:(assumption) (fun h => Na (or_intror h)) b ltac:(assumption) (fun h => Nb (or_intror h)))
          as [[E L]|[[E L]|[E L]]].
        -- left. split; [exact E|]. destruct L as [p [(u & v & E1 & E2)|(u & v & w & z & E1 & E2 & L)]].
           ++ exists (x :: p). left. exists u, v. subst. split; reflexivity.
           ++ exists (x :: p). right. exists u, v, w, z. subst. split; [|split]; [reflexivity|reflexivity|exact L].
        -- right. left. subst. split; [exact E|reflexivity].
        -- right. right. split; [exact E|]. destruct L as [p [(u & v & E1 & E2)|(u & v & w & z & E1 & E2 & L)]].
           ++ exists (x :: p). left. exists u, v. subst. split; reflexivity.
           ++ exists (x :: p). right. exists u, v, w, z. subst. split; [|split]; [reflexivity|reflexivity|exact L].
      * destruct (Z.ltb_spec x y).
        -- left. split; [reflexivity|]. exists []. right. exists x, a, y, b. split; [|split]; [reflexivity|reflexivity|lia].
        -- right. right. split; [reflexivity|]. exists []. right. exists y, b, x, a.
           split; [|split]; [reflexivity|reflexivity|lia].
Qed.

Lemma lex_lt_irrefl a : ~ lex_lt a a.
Proof.
  intros [p [(y & b' & E1 & E2)|(x & a' & y & b' & E1 & E2 & L)]].
  - subst. rewrite <- (app_nil_r p) in E2 at 1. apply app_inv_head in E2. discriminate.
  - rewrite E1 in E2. apply app_inv_head in E2. inversion E2; subst. lia.
Qed.

Lemma lex_lt_asym a : forall b, lex_lt a b -> lex_lt b a -> False.
Proof.
  induction a as [|x a IH]; intros b H1 H2.
  - destruct H2 as [p [(y & b' & E1 & E2)|(u & a' & y & b' & E1 & E2 & L)]]; destruct p; discriminate.
  - destruct b as [|y b].
    + destruct H1 as [p [(u & b' & E1 & E2)|(u & a' & w & b' & E1 & E2 & L)]]; destruct p; discriminate.
    + assert (C : forall u v w z, lex_lt (u :: v) (w :: z) -> u < w \/ (u = w /\ lex_lt v z)).
      { clear. intros u v w z [p [(y & b' & E1 & E2)|(x & a' & y & b' & E1 & E2 & L)]].
        - destruct p as [|c p]; [discriminate|]. inversion E1; subst. inversion E2; subst. right. split; [reflexivity|].
          exists p. left. exists y, b'. split; reflexivity.
        - destruct p as [|c p]; inversion E1; subst; inversion E2; subst; [left; exact L|].
          right. split; [reflexivity|]. exists p. right. exists x, a', y, b'. split; [reflexivity|split; [reflexivity|exact L]]. }
      apply C in H1. apply C in H2. destruct H1 as [|[-> H1]]; destruct H2 as [|[E H2]];
        [lia|lia|lia|exact (IH b H1 H2)].
Qed.

Theorem string_order a b : bytes a -> no_nul a -> bytes b -> no_nul b ->
  (STR_LT a b = true <-> lex_lt a b) /\ (STR_GT a b = true <-> lex_lt b a) /\
  (STR_LE a b = true <-> lex_lt a b \/ a = b) /\ (STR_GE a b = true <-> lex_lt b a \/ a = b).
Proof.
  intros Ba Na Bb Nb. unfold STR_LT, STR_LE, STR_GT, STR_GE.
  pose proof (lex_lt_asym a b) as As. pose proof (lex_lt_irrefl a) as Ir.
  destruct (strcmp_spec a Ba Na b Bb Nb) as [[E L]|[[E L]|[E L]]]; rewrite E.
  - split; [|split; [|split]]; cbn; split; intros H; try discriminate; try tauto.
    destruct H as [H| ->]; [exfalso; exact (As L H)|contradiction].
  - subst b. split; [|split; [|split]]; cbn; split; intros H; try discriminate; tauto.
  - split; [|split; [|split]]; cbn; split; intros H; try discriminate; try tauto.
    destruct H as [H| ->]; [exfalso; exact (As H L)|contradiction].
Qed.

(** exactly one of <, equal, > *)
Theorem string_trichotomy a b : bytes a -> no_nul a -> bytes b -> no_nul b ->
  (STR_LT a b = true /\ a <> b /\ STR_GT a b = false) \/
  (STR_LT a b = false /\ a = b /\ STR_GT a b = false) \/
  (STR_LT a b = false /\ a <> b /\ STR_GT a b = true).
Proof.
  intros Ba Na Bb Nb. unfold STR_LT, STR_GT. pose proof (lex_lt_irrefl a) as Ir.
  destruct (strcmp_spec a Ba Na b Bb Nb) as [[E L]|[[E L]|[E L]]]; rewrite E; cbn.
  - left. split; [reflexivity|split; [intros ->; contradiction|reflexivity]].
  - right. left. tauto.
  - right. right. split; [reflexivity|split; [intros ->; contradiction|reflexivity]].
Qed.

(** A zero byte ends the comparison. *)
Lemma string_order_refuted : exists a b, bytes a /\ bytes b /\ lex_lt a b /\ STR_LT a b = false /\ STR_GE a b = true.
Proof.
  exists [97; 0; 98], [97; 0; 99]. split; [repeat (constructor; try lia)|]. split; [repeat (constructor; try lia)|].
  split; [|split; reflexivity]. exists [97; 0]. right. exists 98, [], 99, []. split; [reflexivity|split; [reflexivity|lia]].
Qed.

(** * Equality *)

Lemma getc_in s i : 0 <= i < len s -> getc s i = Val (nth (Z.to_nat i) s 0).
Proof.
  intros H. unfold getc. destruct (Z.eqb_spec i (-1)); [lia|]. destruct (Z.ltb_spec i 0); [lia|].
  destruct (Z.ltb_spec i (len s)); [reflexivity|lia].
Qed.

Lemma skipn_nth (s : str) i : (i < length s)%nat -> skipn i s = nth i s 0 :: skipn (S i) s.
Proof.
  revert i. induction s as [|c s IH]; intros [|i] H; cbn [length] in H; try lia; [reflexivity|].
  cbn [skipn nth]. rewrite IH by lia. reflexivity.
Qed.

Lemma eq_loop_ok f n : forall a i b j, 0 <= i -> 0 <= j -> i + Z.of_nat n <= len a -> j + Z.of_nat n <= len b ->
  exists r, eq_loop f n a i b j = Val r /\
    (r = true <-> map f (firstn n (skipn (Z.to_nat i) a)) = map f (firstn n (skipn (Z.to_nat j) b))).
Proof.
  induction n as [|n IH]; intros a i b j Hi Hj Ha Hb.
  - exists true. split; [reflexivity|]. cbn. tauto.
  - cbn [eq_loop]. rewrite !getc_in by lia. cbn [bind].
    unfold len in *. rewrite (skipn_nth a (Z.to_nat i)), (skipn_nth b (Z.to_nat j)) by lia.
    cbn [firstn map].
    destruct (Z.eqb_spec (f (nth (Z.to_nat i) a 0)) (f (nth (Z.to_nat j) b 0))) as [E|E].
    + destruct (IH a (i + 1) b (j + 1)) as (r & E1 & E2); [lia|lia|lia|lia|].
      exists r. split; [exact E1|]. rewrite E2.
      replace (Z.to_nat (i + 1)) with (S (Z.to_nat i)) by lia.
      replace (Z.to_nat (j + 1)) with (S (Z.to_nat j)) by lia.
      split; intros H; [rewrite E; f_equal; exact H|inversion H; assumption].
    + exists false. split; [reflexivity|]. split; [discriminate|]. intros H. inversion H. contradiction.
Qed.

Lemma wrap32_id z : - 2 ^ 31 <= z < 2 ^ 31 -> wrap32 z = z.
Proof. intros. unfold wrap32. rewrite Z.mod_small; lia. Qed.

Lemma part_length s b e : 0 <= b <= e -> e <= len s -> length (part s b e) = Z.to_nat (e - b).
Proof. intros. unfold part, len in *. rewrite firstn_length, skipn_length. lia. Qed.

(** the end of the part that is compared *)
Definition upto (e : option Z) (s : str) : Z := match e with Some e => Z.min e (len s) | None => len s end.
Definition bounds_ok (s : str) (b : Z) (e : option Z) : Prop :=
  0 <= b <= upto e s /\ upto e s < 2 ^ 31 /\
  match e with Some e => - 2 ^ 31 <= e < 2 ^ 31 | None => len s <= 100000000 end.

Lemma string_eq_ok f a b s1 e1 s2 e2 : bounds_ok a s1 e1 -> bounds_ok b s2 e2 ->
  exists r, string_eq f a b s1 (or_default e1) s2 (or_default e2) = Val r /\
    (r = true <-> map f (part a s1 (upto e1 a)) = map f (part b s2 (upto e2 b))).
Proof.
  intros (H1 & H2 & H3) (K1 & K2 & K3).
  assert (M : forall e s, match e with Some e => - 2 ^ 31 <= e < 2 ^ 31 | None => len s <= 100000000 end ->
    Z.min (wrap32 (or_default e)) (len s) = upto e s).
  { intros [e|] s H; cbn beta iota in H; cbn [or_default upto]; [rewrite wrap32_id by lia; reflexivity|].
    unfold DEFAULT_END. rewrite wrap32_id by lia. lia. }
  unfold string_eq. rewrite !M by assumption. rewrite (wrap32_id s1), (wrap32_id s2) by lia. rewrite !wrap32_id by lia.
  assert (L1 : upto e1 a <= len a) by (unfold upto; destruct e1; lia).
  assert (L2 : upto e2 b <= len b) by (unfold upto; destruct e2; lia).
  destruct (Z.eqb_spec (upto e1 a - s1) (upto e2 b - s2)) as [E|E]; cbn [negb].
  - destruct (eq_loop_ok f (Z.to_nat (upto e1 a - s1)) a s1 b s2) as (r & E1 & E2); [lia|lia|lia|lia|].
    exists r. split; [exact E1|]. rewrite E2. unfold part. rewrite E at 2. reflexivity.
  - exists false. split; [reflexivity|]. split; [discriminate|]. intros H. exfalso. apply E.
    apply (f_equal (@length Z)) in H. rewrite !map_length, !part_length in H by lia. lia.
Qed.

Theorem string_same_ok a b s1 e1 s2 e2 : bounds_ok a s1 e1 -> bounds_ok b s2 e2 ->
  exists r, string_same a b s1 e1 s2 e2 = Val r /\ (r = true <-> part a s1 (upto e1 a) = part b s2 (upto e2 b)).
Proof.
  intros H K. destruct (string_eq_ok (fun c => c) a b s1 e1 s2 e2 H K) as (r & E & V).
  exists r. split; [exact E|]. rewrite V, !map_id. reflexivity.
Qed.

Lemma upcase_same x y : char_upcase x = char_upcase y <-> same_letter x y.
Proof.
  unfold char_upcase, islower, same_letter.
  destruct (Z.leb_spec 97 x), (Z.leb_spec x 122), (Z.leb_spec 97 y), (Z.leb_spec y 122); cbn [andb]; lia.
Qed.

Lemma map_upcase_same a : forall b, map char_upcase a = map char_upcase b <-> Forall2 same_letter a b.
Proof.
  induction a as [|x a IH]; intros [|y b]; cbn [map]; split; intros H; try discriminate; try (inversion H; fail).
  - constructor.
  - reflexivity.
  - inversion H. constructor; [apply upcase_same; assumption|apply IH; assumption].
  - inversion H; subst. f_equal; [apply upcase_same; assumption|apply IH; assumption].
Qed.

Theorem string_equal_ok a b s1 e1 s2 e2 : bounds_ok a s1 e1 -> bounds_ok b s2 e2 ->
  exists r, string_equal a b s1 e1 s2 e2 = Val r /\
    (r = true <-> Forall2 same_letter (part a s1 (upto e1 a)) (part b s2 (upto e2 b))).
Proof.
  intros H K. destruct (string_eq_ok char_upcase a b s1 e1 s2 e2 H K) as (r & E & V).
  exists r. split; [exact E|]. rewrite V. apply map_upcase_same.
Qed.

Lemma same_prefix p x y : len p = 100000000 -> string_same (p ++ [x]) (p ++ [y]) 0 None 0 None = Val true.
Proof.
  intros L. unfold string_same, or_default.
  destruct (string_eq_ok (fun c => c) (p ++ [x]) (p ++ [y]) 0 (Some DEFAULT_END) 0 (Some DEFAULT_END)) as (r & E & V).
  - unfold bounds_ok, upto, DEFAULT_END, len in *. rewrite app_length. cbn [length]. lia.
  - unfold bounds_ok, upto, DEFAULT_END, len in *. rewrite app_length. cbn [length]. lia.
  - cbn [or_default] in E. rewrite E. f_equal. apply V. rewrite !map_id. unfold part, upto, DEFAULT_END, len in *.
    rewrite !app_length. cbn [length]. rewrite Z.min_l by lia. rewrite !skipn_O.
    rewrite !firstn_app. replace (Z.to_nat (100000000 - 0) - length p)%nat with 0%nat by lia. reflexivity.
Qed.

Lemma string_same_refuted : exists a b, string_same a b 0 None 0 None = Val true /\ a <> b.
Proof.
  assert (P : exists p : str, len p = 100000000).
  { exists (repeat 97 (Z.to_nat 100000000)). unfold len. rewrite repeat_length. rewrite Z2Nat.id; lia. }
  destruct P as [p L]. exists (p ++ [97]), (p ++ [98]). split; [apply same_prefix; exact L|].
  intros E. apply app_inv_head in E. discriminate.
Qed.

(** * substringp *)

Lemma Forall2_length {A B} (R : A -> B -> Prop) l m : Forall2 R l m -> length l = length m.
Proof. induction 1; cbn [length]; congruence. Qed.

Definition occurs (sub s : str) : Prop := exists l m r, s = l ++ m ++ r /\ Forall2 same_letter sub m.

Lemma substringp_loop_ok sub s n : len s < 100000000 -> forall j, 0 <= j ->
  j + Z.of_nat n = len s - len sub + 1 ->
  exists r, substringp_loop n sub s j = Val r /\
    (r = true <-> exists k, j <= k <= len s - len sub /\ Forall2 same_letter sub (part s k (k + len sub))).
Proof.
  intros Hs. induction n as [|n IH]; intros j Hj Hn.
  - exists false. split; [reflexivity|]. split; [discriminate|]. intros (k & Hk & _). lia.
  - cbn [substringp_loop].
    assert (Ls : 0 <= len sub) by (unfold len; lia).
    destruct (string_equal_ok sub s 0 None j (Some (j + len sub))) as (r & E & V).
    + unfold bounds_ok, upto. lia.
    + unfold bounds_ok, upto. rewrite Z.min_l by lia. lia.
    + rewrite E. cbn [bind]. unfold upto in V. rewrite Z.min_l in V by lia.
      assert (Ps : part sub 0 (len sub) = sub).
      { unfold part, len. cbn [skipn]. rewrite Z.sub_0_r, Nat2Z.id. apply firstn_all. }
      rewrite Ps in V. destruct r.
      * exists true. split; [reflexivity|]. split; [|reflexivity]. intros _. exists j. split; [lia|]. apply V. reflexivity.
      * destruct (IH (j + 1)) as (r & E1 & V1); [lia|lia|]. exists r. split; [exact E1|]. rewrite V1. split.
        -- intros (k & Hk & F). exists k. split; [lia|exact F].
        -- intros (k & Hk & F). exists k. split; [|exact F].
           destruct (Z.eq_dec k j) as [->|]; [|lia]. apply V in F. discriminate.
Qed.

Theorem substringp_ok sub s : len s < 100000000 ->
  exists r, substringp sub s = Val r /\ (r = true <-> occurs sub s).
Proof.
  intros Hs. unfold substringp. destruct (Z.le_gt_cases (len sub) (len s)) as [L|L].
  - destruct (substringp_loop_ok sub s (Z.to_nat (len s - len sub + 1)) Hs 0) as (r & E & V); [lia|lia|].
    exists r. split; [exact E|]. rewrite V. split.
    + intros (k & Hk & F). exists (firstn (Z.to_nat k) s), (part s k (k + len sub)), (skipn (Z.to_nat (k + len sub)) s).
      split; [|exact F]. unfold part.
      rewrite <- (firstn_skipn (Z.to_nat k) s) at 1. f_equal.
      rewrite <- (firstn_skipn (Z.to_nat (k + len sub - k)) (skipn (Z.to_nat k) s)) at 1. f_equal.
      assert (SS : forall n m (l : str), skipn n (skipn m l) = skipn (n + m) l).
      { clear. intros n m l. revert m. induction l as [|c l IH]; intros m; [rewrite !skipn_nil; reflexivity|].
        destruct m; [rewrite Nat.add_0_r; reflexivity|]. rewrite Nat.add_succ_r. cbn [skipn]. apply IH. }
      rewrite SS. f_equal. unfold len in *. lia.
    + intros (l & m & r' & -> & F). pose proof (Forall2_length _ _ _ F) as Lm. exists (len l).
      unfold len in *. rewrite !app_length in *. split; [lia|].
      unfold part. rewrite Nat2Z.id, skipn_app, skipn_all, Nat.sub_diag. cbn [app skipn].
      replace (Z.to_nat (Z.of_nat (length l) + Z.of_nat (length sub) - Z.of_nat (length l))) with (length m) by lia.
      rewrite firstn_app, firstn_all, Nat.sub_diag. cbn [firstn]. rewrite app_nil_r. exact F.
  - replace (Z.to_nat (len s - len sub + 1)) with 0%nat by lia. exists false. split; [reflexivity|].
    split; [discriminate|]. intros (l & m & r' & -> & F). exfalso. pose proof (Forall2_length _ _ _ F).
    unfold len in L. rewrite !app_length in L. lia.
Qed.

(** * Trimming *)

Lemma in_bag_spec (bag : str) c : in_bag bag c = true <-> In c bag.
Proof.
  unfold in_bag. rewrite existsb_exists. split.
  - intros (x & H & E). apply Z.eqb_eq in E. subst. exact H.
  - intros H. exists c. split; [exact H|apply Z.eqb_refl].
Qed.

Lemma in_bag_false bag c : ~ In c bag -> in_bag bag c = false.
Proof. intros H. destruct (in_bag bag c) eqn:E; [|reflexivity]. apply in_bag_spec in E. contradiction. Qed.

Lemma split_left (bag s : str) : exists l r : str, s = l ++ r /\ Forall (fun c => In c bag) l /\ (forall c r', r = c :: r' -> ~ In c bag).
Proof.
  induction s as [|c s (l & r & E & F & N)].
  - exists [], []. split; [reflexivity|]. split; [constructor|discriminate].
  - destruct (in_bag bag c) eqn:B.
    + apply in_bag_spec in B. exists (c :: l), r. subst. split; [reflexivity|]. split; [constructor; assumption|exact N].
    + exists [], (c :: s). split; [reflexivity|]. split; [constructor|]. intros c' r' H. inversion H; subst.
      intros I. apply in_bag_spec in I. congruence.
Qed.

Lemma split_right (bag s : str) : exists r t : str, s = r ++ t /\ Forall (fun c => In c bag) t /\ (forall c r', r = r' ++ [c] -> ~ In c bag).
Proof.
  destruct (split_left bag (rev s)) as (l & r & E & F & N). exists (rev r), (rev l).
  rewrite <- rev_app_distr, <- E, rev_involutive. split; [reflexivity|].
  split; [apply Forall_rev; exact F|]. intros c r' H. apply (N c (rev r')).
  rewrite <- (rev_involutive r), H, rev_app_distr. reflexivity.
Qed.

Lemma getc_mid l c r : getc (l ++ c :: r) (len l) = Val c.
Proof.
  unfold len. rewrite getc_in by (unfold len; rewrite app_length; cbn [length]; lia).
  rewrite Nat2Z.id, app_nth2, Nat.sub_diag by lia. reflexivity.
Qed.

Lemma getc_end s : getc s (len s) = Val 0.
Proof.
  unfold getc, len. destruct (Z.eqb_spec (Z.of_nat (length s)) (-1)); [reflexivity|].
  destruct (Z.ltb_spec (Z.of_nat (length s)) 0); [lia|]. destruct (Z.ltb_spec (Z.of_nat (length s)) (Z.of_nat (length s))); [lia|].
  rewrite Z.eqb_refl. reflexivity.
Qed.

Lemma len_app a b : len (a ++ b) = len a + len b.
Proof. unfold len. rewrite app_length. lia. Qed.

Lemma len_cons c b : len (c :: b) = 1 + len b.
Proof. unfold len. cbn [length]. lia. Qed.

Lemma left_loop_ok (bag r : str) : (forall c r', r = c :: r' -> ~ In c bag) -> (r = [] -> ~ In 0 bag) ->
  forall l pre fuel, Forall (fun c => In c bag) l -> (length l < fuel)%nat ->
  left_loop fuel bag (pre ++ l ++ r) (len pre) = Val (len pre + len l).
Proof.
  intros N Z0. induction l as [|c l IH]; intros pre fuel F L; (destruct fuel as [|fuel]; [cbn in L; lia|]); cbn [left_loop].
  - cbn [app]. destruct r as [|c r].
    + rewrite app_nil_r, getc_end. cbn [bind]. rewrite in_bag_false by (apply Z0; reflexivity). f_equal. cbn. lia.
    + rewrite getc_mid. cbn [bind]. rewrite in_bag_false by (eapply N; reflexivity). f_equal. cbn. lia.
  - inversion F; subst. cbn [app]. rewrite getc_mid. cbn [bind].
    rewrite (proj2 (in_bag_spec bag c)) by assumption.
    replace (pre ++ c :: l ++ r) with ((pre ++ [c]) ++ l ++ r) by (rewrite <- app_assoc; reflexivity).
    replace (len pre + 1) with (len (pre ++ [c])) by (rewrite len_app; reflexivity).
    rewrite IH; [|assumption|cbn [length] in L; lia]. f_equal. rewrite len_app, !len_cons. change (len []) with 0. lia.
Qed.

Lemma subseq_suffix l r : subseq (l ++ r) (len l) (len (l ++ r)) = Val r.
Proof.
  unfold subseq. rewrite Z.min_id, len_app. assert (0 <= len l /\ 0 <= len r) by (unfold len; lia).
  destruct (Z.ltb_spec (len l + len r) (len l)); [lia|]. destruct (Z.ltb_spec (len l) 0); [lia|]. cbn [orb].
  f_equal. unfold len. rewrite Nat2Z.id, skipn_app, skipn_all, Nat.sub_diag. cbn [app skipn].
  replace (Z.to_nat (Z.of_nat (length l) + Z.of_nat (length r) - Z.of_nat (length l))) with (length r) by lia.
  apply firstn_all.
Qed.

Lemma subseq_prefix l r : subseq (l ++ r) 0 (len l) = Val l.
Proof.
  unfold subseq. rewrite len_app. assert (0 <= len l /\ 0 <= len r) by (unfold len; lia).
  rewrite Z.min_l by lia. destruct (Z.ltb_spec (len l) 0); [lia|]. cbn [Z.ltb orb].
  destruct (Z.ltb_spec 0 0); [lia|]. cbn [orb]. f_equal. cbn [skipn Z.to_nat].
  unfold len. rewrite Z.sub_0_r, Nat2Z.id. rewrite firstn_app, firstn_all, Nat.sub_diag. cbn [firstn]. apply app_nil_r.
Qed.

(** No zero in the bag, or some character that stays. *)
Definition trimmable (bag s : str) : Prop := ~ In 0 bag \/ Exists (fun c => ~ In c bag) s.

Lemma left_trim_ok bag s : trimmable bag s -> exists r, string_left_trim bag s = Val r /\ trimmed_left bag s r.
Proof.
  intros T. destruct (split_left bag s) as (l & r & -> & F & N). exists r. split; [|exists l; split; [reflexivity|split; assumption]].
  unfold string_left_trim.
  change (left_loop (length (l ++ r) + 2) bag (l ++ r) 0) with (left_loop (length (l ++ r) + 2) bag ([] ++ l ++ r) (len [])).
  rewrite left_loop_ok; [|exact N| |exact F|rewrite app_length; lia].
  - cbn [bind]. replace (len [] + len l) with (len l) by (cbn; lia). apply subseq_suffix.
  - intros ->. destruct T as [T|T]; [exact T|]. exfalso. rewrite app_nil_r in T. apply Exists_exists in T.
    destruct T as (c & I & NI). apply NI. rewrite Forall_forall in F. apply F. exact I.
Qed.

Lemma getc_before s : getc s (-1) = Val 0.
Proof. reflexivity. Qed.

Lemma right_loop_ok (bag r : str) : (forall c r', r = r' ++ [c] -> ~ In c bag) -> (r = [] -> ~ In 0 bag) ->
  forall t post fuel, Forall (fun c => In c bag) t -> (length t < fuel)%nat ->
  right_loop fuel bag ((r ++ t) ++ post) (len r + len t) = Val (len r).
Proof.
  intros N Z0. induction t as [|c t IH] using rev_ind; intros post fuel F L;
    (destruct fuel as [|fuel]; [cbn in L; lia|]); cbn [right_loop].
  - rewrite app_nil_r. replace (len r + len [] - 1) with (len r - 1) by (cbn; lia).
    destruct r as [|x r _] using rev_ind.
    + change (len [] - 1) with (-1). rewrite getc_before. cbn [bind]. rewrite in_bag_false by (apply Z0; reflexivity). reflexivity.
    + rewrite len_app, len_cons. replace (len r + (1 + len []) - 1) with (len r) by (cbn; lia).
      rewrite <- app_assoc. cbn [app]. rewrite getc_mid. cbn [bind]. rewrite in_bag_false by (eapply N; reflexivity).
      f_equal. cbn. lia.
  - apply Forall_app in F. destruct F as [F1 F2]. inversion F2; subst.
    rewrite app_length in L. cbn [length] in L.
    rewrite len_app, len_cons. replace (len r + (len t + (1 + len [])) - 1) with (len (r ++ t)) by (rewrite len_app; cbn; lia).
    replace ((r ++ t ++ [c]) ++ post) with ((r ++ t) ++ c :: post) by (rewrite <- !app_assoc; reflexivity).
    rewrite getc_mid. cbn [bind]. rewrite (proj2 (in_bag_spec bag c)) by assumption.
    rewrite len_app. apply IH; [assumption|lia].
Qed.

Lemma right_trim_ok bag s : trimmable bag s -> exists r, string_right_trim bag s = Val r /\ trimmed_right bag s r.
Proof.
  intros T. destruct (split_right bag s) as (r & t & -> & F & N). exists r. split; [|exists t; split; [reflexivity|split; assumption]].
  unfold string_right_trim.
  replace (right_loop (length (r ++ t) + 2) bag (r ++ t) (len (r ++ t))) with
    (right_loop (length (r ++ t) + 2) bag ((r ++ t) ++ []) (len r + len t)) by (rewrite app_nil_r, len_app; reflexivity).
  rewrite right_loop_ok; [|exact N| |exact F|rewrite app_length; lia].
  - cbn [bind]. apply subseq_prefix.
  - intros ->. destruct T as [T|T]; [exact T|]. exfalso. cbn [app] in T. apply Exists_exists in T.
    destruct T as (c & I & NI). apply NI. rewrite Forall_forall in F. apply F. exact I.
Qed.

Theorem string_trim_ok bag s : trimmable bag s -> exists r, string_trim bag s = Val r /\ trimmed bag s r.
Proof.
  intros T. destruct (right_trim_ok bag s T) as (r1 & E1 & t & Es & Ft & Nt). subst s.
  assert (T1 : trimmable bag r1).
  { destruct T as [T|T]; [left; exact T|]. right. apply Exists_app in T. destruct T as [T|T]; [exact T|].
    exfalso. apply Exists_exists in T. destruct T as (c & I & NI). apply NI. rewrite Forall_forall in Ft. apply Ft. exact I. }
  destruct (left_trim_ok bag r1 T1) as (r & E2 & l & Er & Fl & Nl). subst r1.
  exists r. split; [unfold string_trim; rewrite E1; exact E2|].
  exists l, t. split; [rewrite app_assoc; reflexivity|]. split; [exact Fl|]. split; [exact Ft|]. split; [exact Nl|].
  intros c r' ->. apply (Nt c (l ++ r')). rewrite app_assoc. reflexivity.
Qed.

(** Trimming everything with a zero byte in the bag runs off the string. *)
Lemma string_trim_refuted : exists bag s, bytes bag /\ bytes s /\ string_left_trim bag s = Undef /\
  string_right_trim bag s = Undef.
Proof.
  exists [0; 32], [32; 32]. split; [repeat (constructor; try lia)|]. split; [repeat (constructor; try lia)|].
  split; reflexivity.
Qed.

(** * Case conversion *)

Lemma set_nth_length {A} n (l : list A) x : length (set_nth n l x) = length l.
Proof. revert n. induction l as [|y l IH]; intros [|n]; cbn [set_nth length]; [reflexivity|reflexivity|reflexivity|]. rewrite IH. reflexivity. Qed.

Lemma nth_set_nth {A} n k (l : list A) x d : nth k (set_nth n l x) d = if ((k =? n) && (n <? length l))%nat then x else nth k l d.
Proof.
  revert n k. induction l as [|y l IH]; intros [|n] [|k]; cbn [set_nth nth length]; try reflexivity.
  - rewrite andb_false_r. reflexivity.
  - rewrite IH. reflexivity.
Qed.

Lemma set_nth_twice {A} n (l : list A) x y : set_nth n (set_nth n l x) y = set_nth n l y.
Proof. revert n. induction l as [|z l IH]; intros [|n]; cbn [set_nth]; [reflexivity|reflexivity|reflexivity|]. rewrite IH. reflexivity. Qed.

Lemma set_nth_mid (l : str) c r x : set_nth (length l) (l ++ c :: r) x = l ++ x :: r.
Proof. induction l; cbn [length app set_nth]; [reflexivity|]. rewrite IHl. reflexivity. Qed.

Lemma set_nth_same {A} n (l : list A) d : set_nth n l (nth n l d) = l.
Proof. revert n. induction l as [|z l IH]; intros [|n]; cbn [set_nth nth]; [reflexivity|reflexivity|reflexivity|]. rewrite IH. reflexivity. Qed.

Definition keeps_bytes (f : Z -> Z) : Prop := forall c, 0 <= c < 256 -> 0 <= f c < 256.

Lemma case_loop_ok f : keeps_bytes f -> forall mid l r m a, (a < length m)%nat -> content m a = l ++ mid ++ r -> bytes mid ->
  case_loop f (length mid) m a (len l) = Val (set_nth a m (l ++ map f mid ++ r)).
Proof.
  intros K. induction mid as [|c mid IH]; intros l r m a Ha Hc B.
  - cbn [length case_loop map app]. f_equal. cbn [app] in Hc. rewrite <- Hc. unfold content. symmetry. apply set_nth_same.
  - cbn [length case_loop]. rewrite Hc. cbn [app]. rewrite getc_mid. cbn [bind]. inversion B; subst.
    unfold setc. assert (L : len (l ++ c :: mid ++ r) = len l + 1 + len (mid ++ r)) by (rewrite len_app, len_cons; lia).
    assert (0 <= len l /\ 0 <= len (mid ++ r)) by (unfold len; lia).
    destruct (Z.leb_spec 0 (len l)); [|lia]. destruct (Z.ltb_spec (len l) (len (l ++ c :: mid ++ r))); [|lia].
    cbn [andb bind]. rewrite Z.mod_small by (apply K; assumption).
    replace (Z.to_nat (len l)) with (length l) by (unfold len; lia). rewrite set_nth_mid.
    replace (len l + 1) with (len (l ++ [f c])) by (rewrite len_app; reflexivity).
    rewrite (IH (l ++ [f c]) r); [|rewrite set_nth_length; exact Ha| |assumption].
    + rewrite set_nth_twice, <- app_assoc. reflexivity.
    + unfold content. rewrite nth_set_nth, Nat.eqb_refl. destruct (Nat.ltb_spec a (length m)); [|lia].
      cbn [andb]. rewrite <- app_assoc. reflexivity.
Qed.

Lemma upcase_bytes : keeps_bytes char_upcase.
Proof. intros c H. unfold char_upcase, islower. destruct (Z.leb_spec 97 c), (Z.leb_spec c 122); cbn [andb]; lia. Qed.
Lemma downcase_bytes : keeps_bytes char_downcase.
Proof. intros c H. unfold char_downcase, isupper. destruct (Z.leb_spec 65 c), (Z.leb_spec c 90); cbn [andb]; lia. Qed.

(** [s] with the part between [b] and [e] mapped *)
Definition map_part (f : Z -> Z) (s : str) (b e : Z) : str :=
  firstn (Z.to_nat b) s ++ map f (part s b e) ++ skipn (Z.to_nat e) s.

Lemma part_split s b e : 0 <= b <= e -> e <= len s ->
  s = firstn (Z.to_nat b) s ++ part s b e ++ skipn (Z.to_nat e) s.
Proof.
  intros H L. unfold part.
  assert (SS : forall n m (l : str), skipn n (skipn m l) = skipn (n + m) l).
  { clear. intros n m l. revert m. induction l as [|c l IH]; intros m; [rewrite !skipn_nil; reflexivity|].
    destruct m; [rewrite Nat.add_0_r; reflexivity|]. rewrite Nat.add_succ_r. cbn [skipn]. apply IH. }
  replace (skipn (Z.to_nat e) s) with (skipn (Z.to_nat (e - b)) (skipn (Z.to_nat b) s)) by (rewrite SS; f_equal; lia).
  rewrite !firstn_skipn. reflexivity.
Qed.

Lemma Forall_firstn' {A} (P : A -> Prop) n l : Forall P l -> Forall P (firstn n l).
Proof. intros H. revert n. induction H; intros [|n]; cbn [firstn]; constructor; auto. Qed.
Lemma Forall_skipn' {A} (P : A -> Prop) n l : Forall P l -> Forall P (skipn n l).
Proof. intros H. revert n. induction H; intros [|n]; cbn [skipn]; try constructor; auto. Qed.

Theorem nstring_case_ok f m a b e : keeps_bytes f -> (a < length m)%nat -> bytes (content m a) ->
  0 <= b <= match e with Some e => e | None => len (content m a) end ->
  match e with Some e => e | None => len (content m a) end <= len (content m a) ->
  exists m', nstring_case f m (Str a) b e = Val (m', Str a) /\ length m' = length m /\
    content m' a = map_part f (content m a) b (match e with Some e => e | None => len (content m a) end) /\
    (forall x, x <> a -> content m' x = content m x).
Proof.
  intros K Ha B Hb He. cbn [nstring_case].
  set (e' := match e with Some e => e | None => len (content m a) end) in *. clearbody e'.
  set (s := content m a) in *.
  assert (Lp : Z.to_nat (e' - b) = length (part s b e')) by (symmetry; apply part_length; lia).
  assert (Lb : b = len (firstn (Z.to_nat b) s)) by (unfold len in *; rewrite firstn_length; lia).
  eexists. split.
  - rewrite Lp. rewrite Lb at 2. rewrite (case_loop_ok f K (part s b e') _ (skipn (Z.to_nat e') s)); [reflexivity|exact Ha| |].
    + apply part_split; lia.
    + apply Forall_firstn', Forall_skipn'. exact B.
  - split; [apply set_nth_length|]. unfold content. split.
    + rewrite nth_set_nth, Nat.eqb_refl. destruct (Nat.ltb_spec a (length m)); [|lia]. reflexivity.
    + intros x Hx. rewrite nth_set_nth. destruct (Nat.eqb_spec x a); [contradiction|reflexivity].
Qed.

Theorem string_case_ok f m o a b e : keeps_bytes f -> true_string o = Val a -> (a < length m)%nat -> bytes (content m a) ->
  0 <= b <= match e with Some e => e | None => len (content m a) end ->
  match e with Some e => e | None => len (content m a) end <= len (content m a) ->
  exists m', string_case f m o b e = Val (m', Str (length m)) /\
    content m' (length m) = map_part f (content m a) b (match e with Some e => e | None => len (content m a) end) /\
    (forall x, (x < length m)%nat -> content m' x = content m x).
Proof.
  intros K Ho Ha B Hb He. unfold string_case. rewrite Ho. cbn [bind copy_seq fst snd].
  assert (C : content (m ++ [content m a]) (length m) = content m a).
  { unfold content. rewrite app_nth2, Nat.sub_diag by lia. reflexivity. }
  rewrite C. set (e' := match e with Some e => e | None => len (content m a) end) in *.
  destruct (nstring_case_ok f (m ++ [content m a]) (length m) b (Some e') K) as (m' & E & L & V & O);
    [rewrite app_length; cbn; lia|rewrite C; exact B|exact Hb|rewrite C; exact He|].
  exists m'. split; [exact E|]. split; [rewrite V, C; reflexivity|]. intros x Hx. rewrite O by lia.
  unfold content. apply app_nth1. exact Hx.
Qed.

Lemma string_of_ok m o a : true_string o = Val a -> (a < length m)%nat ->
  exists m' r, string_of m o = Val (m', Str r) /\ content m' r = content m a /\
    (forall x, (x < length m)%nat -> content m' x = content m x) /\
    (forall p, o = Sym p -> r = length m) /\ (forall p, o = Str p -> r = p /\ m' = m).
Proof.
  intros Ho Ha. destruct o as [p|p|]; cbn [true_string] in Ho; [| |discriminate]; inversion Ho; subst.
  - exists m, a. cbn [string_of]. split; [reflexivity|]. split; [reflexivity|]. split; [reflexivity|].
    split; [discriminate|]. intros p E. inversion E. split; reflexivity.
  - exists (m ++ [content m a]), (length m). cbn [string_of copy_seq fst snd]. split; [reflexivity|].
    split; [unfold content; rewrite app_nth2, Nat.sub_diag by lia; reflexivity|].
    split; [intros x Hx; unfold content; apply app_nth1; exact Hx|]. split; [reflexivity|discriminate].
Qed.

(** An end beyond the string is written through. *)
Lemma nstring_case_refuted : exists m e, nstring_case char_upcase m (Str 0) 0 (Some e) = Undef.
Proof. exists [[97; 98]], 3. reflexivity. Qed.

(** The letters by a table: position in one alphabet, character in the other *)
Definition lower_alphabet : str := map (fun n => 97 + Z.of_nat n) (seq 0 26).
Definition upper_alphabet : str := map (fun n => 65 + Z.of_nat n) (seq 0 26).
Definition exchange (from to : str) (c : Z) : Z :=
  match find (fun p => fst p =? c) (combine from to) with Some p => snd p | None => c end.

Lemma exchange_none from to c : (forall p, In p (combine from to) -> fst p <> c) -> exchange from to c = c.
Proof.
  intros H. unfold exchange. destruct (find _ _) as [p|] eqn:E; [|reflexivity].
  apply find_some in E. destruct E as [I E]. apply Z.eqb_eq in E. exfalso. exact (H p I E).
Qed.

Lemma exchange_in b d n : (n < 26)%nat ->
  exchange (map (fun n => b + Z.of_nat n) (seq 0 26)) (map (fun n => d + Z.of_nat n) (seq 0 26)) (b + Z.of_nat n) = d + Z.of_nat n.
Proof.
  intros H. unfold exchange.
  enough (G : forall k m, (m <= n < m + k)%nat ->
    find (fun p => fst p =? b + Z.of_nat n) (combine (map (fun n => b + Z.of_nat n) (seq m k)) (map (fun n => d + Z.of_nat n) (seq m k)))
      = Some (b + Z.of_nat n, d + Z.of_nat n)).
  { rewrite G by lia. reflexivity. }
  clear H. induction k as [|k IH]; intros m H; [lia|]. cbn [seq map combine find fst].
  destruct (Z.eqb_spec (b + Z.of_nat m) (b + Z.of_nat n)).
  - replace m with n by lia. reflexivity.
  - apply IH. lia.
Qed.

Lemma exchange_out b d c : c < b \/ b + 26 <= c ->
  exchange (map (fun n => b + Z.of_nat n) (seq 0 26)) (map (fun n => d + Z.of_nat n) (seq 0 26)) c = c.
Proof.
  intros H. apply exchange_none. intros [x y] I. apply in_combine_l in I. apply in_map_iff in I.
  destruct I as (n & <- & I). apply in_seq in I. cbn [fst]. lia.
Qed.

Lemma upcase_exchange c : char_upcase c = exchange lower_alphabet upper_alphabet c.
Proof.
  unfold char_upcase, islower, lower_alphabet, upper_alphabet.
  destruct (Z.leb_spec 97 c); [destruct (Z.leb_spec c 122)|]; cbn [andb].
  - replace c with (97 + Z.of_nat (Z.to_nat (c - 97))) at 2 by lia. rewrite exchange_in; lia.
  - rewrite exchange_out; lia.
  - rewrite exchange_out; lia.
Qed.

Lemma downcase_exchange c : char_downcase c = exchange upper_alphabet lower_alphabet c.
Proof.
  unfold char_downcase, isupper, lower_alphabet, upper_alphabet.
  destruct (Z.leb_spec 65 c); [destruct (Z.leb_spec c 90)|]; cbn [andb].
  - replace c with (65 + Z.of_nat (Z.to_nat (c - 65))) at 2 by lia. rewrite exchange_in; lia.
  - rewrite exchange_out; lia.
  - rewrite exchange_out; lia.
Qed.

(** A conversion of the code and what it should do to a character *)
Definition conversion (f g : Z -> Z) : Prop :=
  (f = char_upcase /\ g = exchange lower_alphabet upper_alphabet) \/
  (f = char_downcase /\ g = exchange upper_alphabet lower_alphabet).

Lemma conversion_eq f g : conversion f g -> keeps_bytes f /\ forall c, f c = g c.
Proof.
  intros [[-> ->]|[-> ->]].
  - split; [exact upcase_bytes|exact upcase_exchange].
  - split; [exact downcase_bytes|exact downcase_exchange].
Qed.

Lemma map_part_ext f g s b e : (forall c, f c = g c) -> map_part f s b e = map_part g s b e.
Proof. intros H. unfold map_part. rewrite (map_ext f g H). reflexivity. Qed.
