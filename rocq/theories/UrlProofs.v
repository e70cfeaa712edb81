(** Proofs about URL escapes and numbered file names. *)
From Verif Require Import Word BigModel BigSpec BigProofs BigProofs2 BigProofs3 IntTextModel IntTextProofs StrModel StrProofs
  HexModel HexProofs UrlModel.

(** * Specification vocabulary *)

Definition letter_or_digit (c : Z) : Prop := 65 <= c <= 90 \/ 97 <= c <= 122 \/ 48 <= c <= 57.

(** Text made of characters that need no escape, +, and % with two hexadecimal digits *)
Inductive url_text : str -> Prop :=
| url_nil : url_text []
| url_char c r : letter_or_digit c \/ In c [45; 95; 46; 126; 58; 47; 61; 63; 38] -> url_text r -> url_text (c :: r)
| url_plus r : url_text r -> url_text (43 :: r)
| url_percent a b x y r : hex_digit a x -> hex_digit b y -> url_text r -> url_text (37 :: a :: b :: r).

Lemma unreserved_spec c : unreserved_char_p c = true <-> letter_or_digit c \/ In c [45; 95; 46; 126; 58; 47; 61; 63; 38].
Proof.
  unfold unreserved_char_p, letter_or_digit. rewrite !orb_true_iff, !andb_true_iff, !Z.leb_le, existsb_exists. split.
  - intros [[[H|H]|H]|(x & I & E)]; [left; lia|left; lia|left; lia|]. apply Z.eqb_eq in E. subst. right. exact I.
  - intros [[H|[H|H]]|H]; [left; left; left; lia|left; left; right; lia|left; right; lia|].
    right. exists c. split; [exact H|apply Z.eqb_refl].
Qed.

(** Two hexadecimal digits for every byte *)
Lemma hex_byte down c : 0 <= c < 256 -> exists h a b x y, print_integer 16 down (makeint c) = Some h /\
  zero_padding h 2 = [a; b] /\ hex_digit a x /\ hex_digit b y /\ 16 * x + y = c.
Proof.
  intros H. assert (FR : fixnum_range c) by (unfold fixnum_range; lia).
  destruct (makeint_fix_regular c FR) as [V R]. rewrite makeint_fix in V, R by exact FR.
  assert (C : canonical (Imm (4 * c + 2))) by exact R. rewrite makeint_fix by exact FR.
  destruct (print_integer_spec 16 down _ ltac:(lia) C) as (dl & P & F & E & N). rewrite V in P, E.
  destruct (Z.ltb_spec c 0); [lia|]. cbn [app] in P.
  pose proof (print_len down _ _ 1 C ltac:(rewrite V; cbn; lia) P) as L. rewrite map_length in L.
  destruct dl as [|x [|y [|z dl]]]; [contradiction| | |cbn [length] in L; lia].
  - inversion F; subst. cbn in E. exists [digit_char 16 down x], 48, (digit_char 16 down x), 0, x.
    split; [exact P|]. split; [reflexivity|]. split; [left; lia|]. split; [apply digit_char_hex; assumption|lia].
  - inversion F as [|? ? H1 F1]; subst. inversion F1; subst. cbn in E.
    exists [digit_char 16 down x; digit_char 16 down y], (digit_char 16 down x), (digit_char 16 down y), x, y.
    split; [exact P|]. split; [reflexivity|]. split; [apply digit_char_hex; assumption|]. split; [apply digit_char_hex; assumption|lia].
Qed.

Lemma read_two a b x y : hex_digit a x -> hex_digit b y -> exists o, read_sharp_hex 0 [a; b] = Ok (o, []) /\ intval o = 16 * x + y.
Proof.
  intros A B. destruct (read_hex_ok 0 [a; b] [x; y] []) as (o & E & C & V).
  - constructor; [exact A|]. constructor; [exact B|constructor].
  - discriminate.
  - cbn. lia.
  - right. intros c r d X. discriminate.
  - exists o. split; [exact E|]. cbn in V. pose proof (hex_digit_range _ _ A). pose proof (hex_digit_range _ _ B).
    destruct o as [w|ds].
    + destruct (intval_imm w (canonical_regular _ C)) as [Ei _]. rewrite Ei, V. lia.
    + exfalso. destruct C as (_ & NF & _). apply NF. unfold fixnum_range. change (bigval ds) with (value (Big ds)). rewrite V. lia.
Qed.

(** * The round trip *)

Lemma escape_char_cases down q c : 0 <= c < 256 -> c <> 13 ->
  (escape_char down q c = Val [c] /\ c <> 37 /\ c <> 43 /\ (letter_or_digit c \/ In c [45; 95; 46; 126; 58; 47; 61; 63; 38])) \/
  (escape_char down q c = Val [43] /\ q = true /\ c = 32) \/
  (exists a b x y, escape_char down q c = Val [37; a; b] /\ hex_digit a x /\ hex_digit b y /\ 16 * x + y = c).
Proof.
  intros H N. unfold escape_char. destruct (unreserved_char_p c) eqn:U.
  - left. apply unreserved_spec in U. split; [reflexivity|].
    assert (X : c <> 37 /\ c <> 43); [|destruct X; split; [assumption|split; assumption]].
    destruct U as [[U|[U|U]]|U]; [lia|lia|lia|]. cbn [In] in U. lia.
  - unfold RETURN. destruct (Z.eqb_spec c 13); [contradiction|].
    destruct (q && (c =? SPACE)) eqn:S.
    + right. left. apply andb_true_iff in S. destruct S as [S1 S2]. apply Z.eqb_eq in S2. split; [reflexivity|]. split; assumption.
    + right. right. destruct (hex_byte down c H) as (h & a & b & x & y & P & Z & A & B & E). rewrite P, Z.
      exists a, b, x, y. split; [reflexivity|]. split; [exact A|]. split; [exact B|exact E].
Qed.

Theorem escape_unescape down q q' s : bytes s -> ~ In 13 s -> (q = true -> q' = true) ->
  exists t, escape_url down q s = Val t /\ url_text t /\ unescape_url q' t = Val s.
Proof.
  intros B N Q. induction B as [|c s Hc B IH]; [exists []; split; [reflexivity|]; split; [constructor|reflexivity]|].
  destruct IH as (t & E & U & R); [intros X; apply N; right; exact X|]. cbn [escape_url].
  destruct (escape_char_cases down q c Hc ltac:(intros ->; apply N; left; reflexivity))
    as [(Ec & N1 & N2 & L)|[(Ec & Q1 & E32)|(a & b & x & y & Ec & A & Bb & V)]]; rewrite Ec, E; cbn [bind].
  - exists (c :: t). split; [reflexivity|]. split; [apply url_char; assumption|]. cbn [unescape_url].
    destruct (Z.eqb_spec c 37); [contradiction|]. destruct (Z.eqb_spec c 43); [contradiction|]. cbn [andb]. rewrite R. reflexivity.
  - subst c. exists (43 :: t). split; [reflexivity|]. split; [apply url_plus; assumption|]. cbn [unescape_url].
    rewrite (Q Q1). cbn [Z.eqb Pos.eqb andb]. rewrite <- (Q Q1), R. reflexivity.
  - exists (37 :: a :: b :: t). split; [reflexivity|]. split; [eapply url_percent; eassumption|]. cbn [unescape_url Z.eqb Pos.eqb].
    destruct (read_two a b x y A Bb) as (o & Eo & Vo). rewrite Eo, R. cbn [bind]. rewrite Vo, V, Z.mod_small by exact Hc. reflexivity.
Qed.

(** Return becomes Newline. *)
Lemma escape_return_refuted : exists s t, bytes s /\ escape_url true true s = Val t /\ unescape_url true t = Val [10] /\ s = [13].
Proof.
  exists [13], [10]. split; [constructor; [lia|constructor]|]. split; [vm_compute; reflexivity|]. split; [vm_compute; reflexivity|reflexivity].
Qed.

(** * Numbered file names *)

Lemma last_digit_ok n : 0 <= n < 2 ^ 61 -> last_digit n 10 = Val [48 + n mod 10].
Proof.
  intros H. unfold last_digit. rewrite Z.quot_div_nonneg by lia.
  replace (n - n / 10 * 10) with (n mod 10) by (rewrite Z.mod_eq by lia; ring).
  pose proof (Z.mod_pos_bound n 10 ltac:(lia)) as B. set (d := n mod 10) in *. clearbody d.
  assert (C : d = 0 \/ d = 1 \/ d = 2 \/ d = 3 \/ d = 4 \/ d = 5 \/ d = 6 \/ d = 7 \/ d = 8 \/ d = 9) by lia.
  destruct C as [X|[X|[X|[X|[X|[X|[X|[X|[X|X]]]]]]]]]; rewrite X; vm_compute; reflexivity.
Qed.

(** The decimal digits of [t] *)
Definition decimal (t : str) (ds : list Z) : Prop := Forall2 (fun c d => 0 <= d < 10 /\ c = 48 + d) t ds.

Theorem digits_string_ok digits : forall n, 0 <= n < 2 ^ 61 ->
  exists t ds, digits_string n (S digits) 10 = Val t /\ decimal t ds /\ length t = S digits /\ eval 10 ds = n mod 10 ^ Z.of_nat (S digits).
Proof.
  induction digits as [|k IH]; intros n H.
  - exists [48 + n mod 10], [n mod 10]. cbn [digits_string]. split; [apply last_digit_ok; exact H|].
    pose proof (Z.mod_pos_bound n 10 ltac:(lia)) as B.
    split; [constructor; [split; [exact B|reflexivity]|constructor]|]. split; [reflexivity|].
    change (10 ^ Z.of_nat 1) with 10. unfold eval. cbn [fold_left]. lia.
  - change (digits_string n (S (S k)) 10) with
      (bind (digits_string (Z.quot n 10) (S k) 10) (fun h => bind (last_digit n 10) (fun t => Val (h ++ t)))).
    rewrite Z.quot_div_nonneg by lia.
    assert (B : 0 <= n / 10 < 2 ^ 61) by (split; [apply Z.div_pos; lia|apply Z.div_lt_upper_bound; lia]).
    destruct (IH (n / 10) B) as (t & ds & E & D & L & V). rewrite E. cbn [bind]. rewrite last_digit_ok by exact H. cbn [bind].
    exists (t ++ [48 + n mod 10]), (ds ++ [n mod 10]). split; [reflexivity|].
    pose proof (Z.mod_pos_bound n 10 ltac:(lia)) as B10.
    split; [apply Forall2_app; [exact D|constructor; [split; [exact B10|reflexivity]|constructor]]|].
    split; [rewrite app_length, L; cbn [length]; lia|].
    rewrite eval_snoc, V. rewrite (Nat2Z.inj_succ (S k)), Z.pow_succ_r by lia.
    rewrite Z.rem_mul_r by (try apply Z.pow_nonzero; lia). lia.
Qed.

(** Equal lengths: numeric order is the order of the texts. *)
Lemma decimal_range t ds : decimal t ds -> 0 <= eval 10 ds < 10 ^ Z.of_nat (length t).
Proof.
  intros D. assert (L : length t = length ds) by (exact (StrProofs.Forall2_length _ _ _ D)). rewrite L. apply eval_bounds; [lia|].
  clear L. induction D as [|c d t ds [H _] D IH]; constructor; assumption.
Qed.

Lemma eval10_cons d ds : eval 10 (d :: ds) = d * 10 ^ Z.of_nat (length ds) + eval 10 ds.
Proof.
  induction ds as [|e ds IH] using rev_ind; [cbn; lia|].
  change (d :: ds ++ [e]) with ((d :: ds) ++ [e]). rewrite !eval_snoc, IH, app_length. cbn [length].
  replace (Z.of_nat (length ds + 1)) with (Z.of_nat (length ds) + 1) by lia. rewrite Z.pow_add_r by lia. ring.
Qed.

Lemma lex_cons c a b : lex_lt a b -> lex_lt (c :: a) (c :: b).
Proof.
  intros (p & [(y & b' & E1 & E2)|(x & a' & y & b' & E1 & E2 & L)]); exists (c :: p); subst.
  - left. exists y, b'. split; reflexivity.
  - right. exists x, a', y, b'. split; [reflexivity|]. split; [reflexivity|exact L].
Qed.

Lemma decimal_order : forall t ds u es, decimal t ds -> decimal u es -> length t = length u -> eval 10 ds < eval 10 es ->
  forall s, exists p x t' y u', t ++ s = p ++ x :: t' /\ u ++ s = p ++ y :: u' /\ x < y.
Proof.
  induction t as [|c t IH]; intros ds u es D E L V s.
  - inversion D; subst. destruct u; [|discriminate]. inversion E; subst. cbn in V. lia.
  - inversion D as [|c' d t' ds' [Hd ->] D']; subst. destruct u as [|c2 u]; [discriminate|].
    inversion E as [|c' e u' es' [He ->] E']; subst. cbn [length] in L.
    destruct (Z.lt_trichotomy d e) as [X|[<-|X]].
    + exists [], (48 + d), (t ++ s), (48 + e), (u ++ s). split; [reflexivity|]. split; [reflexivity|lia].
    + rewrite !eval10_cons in V. rewrite <- (StrProofs.Forall2_length _ _ _ D'), <- (StrProofs.Forall2_length _ _ _ E') in V.
      replace (length u) with (length t) in V by lia.
      destruct (IH ds' u es' D' E' ltac:(lia) ltac:(lia) s) as (p & x & t' & y & u' & E1 & E2 & X).
      exists ((48 + d) :: p), x, t', y, u'. cbn [app]. rewrite E1, E2. split; [reflexivity|]. split; [reflexivity|exact X].
    + exfalso. rewrite !eval10_cons in V. rewrite <- (StrProofs.Forall2_length _ _ _ D'), <- (StrProofs.Forall2_length _ _ _ E') in V.
      replace (length u) with (length t) in V by lia.
      pose proof (decimal_range _ _ D') as R1. pose proof (decimal_range _ _ E') as R2.
      replace (length u) with (length t) in R2 by lia.
      set (w := 10 ^ Z.of_nat (length t)) in *. clearbody w. nia.
Qed.

Theorem sequential_order head ext k n m : 0 <= n -> n < m -> m < 10 ^ Z.of_nat (S k) -> m < 2 ^ 61 ->
  exists a b, sequential_file_name head n ext (S k) = Val a /\ sequential_file_name head m ext (S k) = Val b /\ lex_lt a b.
Proof.
  intros H1 H2 H3 H4. unfold sequential_file_name.
  destruct (digits_string_ok k n ltac:(lia)) as (t & ds & E1 & D1 & L1 & V1).
  destruct (digits_string_ok k m ltac:(lia)) as (u & es & E2 & D2 & L2 & V2).
  rewrite E1, E2. cbn [bind]. eexists. eexists. split; [reflexivity|]. split; [reflexivity|].
  rewrite Z.mod_small in V1, V2 by lia.
  destruct (decimal_order t ds u es D1 D2 ltac:(lia) ltac:(lia) ([46] ++ ext)) as (p & x & t' & y & u' & P1 & P2 & X).
  rewrite P1, P2. exists (head ++ p). right. exists x, t', y, u'.
  split; [rewrite <- app_assoc; reflexivity|]. split; [rewrite <- app_assoc; reflexivity|exact X].
Qed.

(** With four digits, 10000 has the name of 0; the base is lost: 8 in base 8 with two digits is "18". *)
Lemma sequential_refuted : exists n m a, n <> m /\ sequential_file_name [] n [] 4 = Val a /\ sequential_file_name [] m [] 4 = Val a.
Proof. exists 0, 10000. eexists. split; [lia|]. split; [vm_compute; reflexivity|vm_compute; reflexivity]. Qed.

Lemma digits_base_refuted : digits_string 8 2 8 = Val [49; 56].
Proof. vm_compute. reflexivity. Qed.

(** Text without escapes: + is a space in the query and itself elsewhere. *)
Lemma unescape_plain : forall q s, ~ In 37 s ->
  unescape_url q s = Val (map (fun c => if (c =? 43) && q then SPACE else c) s).
Proof.
  intros q s; induction s as [|c r IH]; intro H; [reflexivity|].
  cbn [unescape_url map]. destruct (Z.eqb_spec c 37) as [E|_]; [exfalso; apply H; left; exact E|].
  rewrite IH by (intro K; apply H; right; exact K). destruct ((c =? 43) && q); reflexivity.
Qed.
