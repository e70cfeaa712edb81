(** Properties C66-C70 of the string functions. *)
From Verif Require Import Word StrModel StrProofs.

(** ** C66: string<, string<=, string> and string>= compare lexicographically.

    They stop at the first zero byte of a string, so the full statement is false; it holds for strings without one. *)
Theorem C66_order_partial : forall a b, bytes a -> no_nul a -> bytes b -> no_nul b ->
  (STR_LT a b = true <-> lex_lt a b) /\ (STR_GT a b = true <-> lex_lt b a) /\
  (STR_LE a b = true <-> lex_lt a b \/ a = b) /\ (STR_GE a b = true <-> lex_lt b a \/ a = b).
Proof. exact string_order. Qed.
Print Assumptions C66_order_partial.

Theorem C66_trichotomy_partial : forall a b, bytes a -> no_nul a -> bytes b -> no_nul b ->
  (STR_LT a b = true /\ a <> b /\ STR_GT a b = false) \/
  (STR_LT a b = false /\ a = b /\ STR_GT a b = false) \/
  (STR_LT a b = false /\ a <> b /\ STR_GT a b = true).
Proof. exact string_trichotomy. Qed.
Print Assumptions C66_trichotomy_partial.

Theorem C66_order_refuted : exists a b, bytes a /\ bytes b /\ lex_lt a b /\ STR_LT a b = false /\ STR_GE a b = true.
Proof. exact string_order_refuted. Qed.
Print Assumptions C66_order_refuted.

(** "abc" < "abd" < "abda", and a byte above 127 is greater than a letter. *)
Example C66_ex : bytes [97; 98; 99] /\ no_nul [97; 98; 99] /\ STR_LT [97; 98; 99] [97; 98; 100] = true /\
  STR_LT [97; 98; 100] [97; 98; 100; 97] = true /\ STR_GE [97; 98; 100] [97; 98; 100; 97] = false /\
  STR_LE [97] [97] = true /\ STR_GT [228] [122] = true.
Proof.
  split; [unfold bytes; repeat (constructor; [lia|]); constructor|].
  split; [unfold no_nul; cbn [In]; lia|]. repeat split; reflexivity.
Qed.

(** ** C67: string= and string-equal decide whether the designated parts are the same, string-equal up to case.

    An omitted end counts as 100000000, so longer strings are only compared up to there. *)
Theorem C67_string_same_partial : forall a b s1 e1 s2 e2, bounds_ok a s1 e1 -> bounds_ok b s2 e2 ->
  exists r, string_same a b s1 e1 s2 e2 = Val r /\ (r = true <-> part a s1 (upto e1 a) = part b s2 (upto e2 b)).
Proof. exact string_same_ok. Qed.
Print Assumptions C67_string_same_partial.

Theorem C67_string_equal_partial : forall a b s1 e1 s2 e2, bounds_ok a s1 e1 -> bounds_ok b s2 e2 ->
  exists r, string_equal a b s1 e1 s2 e2 = Val r /\
    (r = true <-> Forall2 same_letter (part a s1 (upto e1 a)) (part b s2 (upto e2 b))).
Proof. exact string_equal_ok. Qed.
Print Assumptions C67_string_equal_partial.

Theorem C67_string_same_refuted : exists a b, string_same a b 0 None 0 None = Val true /\ a <> b.
Proof. exact string_same_refuted. Qed.
Print Assumptions C67_string_same_refuted.

(** "xAbc" from 1 and "abC" *)
Example C67_ex : bounds_ok [120; 65; 98; 99] 1 None /\ bounds_ok [97; 98; 67] 0 (Some 3) /\
  string_equal [120; 65; 98; 99] [97; 98; 67] 1 None 0 (Some 3) = Val true /\
  string_same [120; 65; 98; 99] [97; 98; 67] 1 None 0 (Some 3) = Val false /\
  string_same [120; 65; 98; 99] [65; 98] 1 (Some 3) 0 None = Val true /\
  string_equal [64] [96] 0 None 0 None = Val false.
Proof. split; [|split]; [unfold bounds_ok, upto, len; cbn; lia|unfold bounds_ok, upto, len; cbn; lia|repeat split; reflexivity]. Qed.

(** ** C68: string-trim, string-left-trim and string-right-trim return what is left without the bag characters at the
    ends.

    The loops also look at the bytes just outside the string, so the full statement fails for a bag with a zero byte. *)
Theorem C68_string_trim_partial : forall bag s, trimmable bag s ->
  exists r, string_trim bag s = Val r /\ trimmed bag s r.
Proof. exact string_trim_ok. Qed.
Print Assumptions C68_string_trim_partial.

Theorem C68_string_left_trim_partial : forall bag s, trimmable bag s ->
  exists r, string_left_trim bag s = Val r /\ trimmed_left bag s r.
Proof. exact left_trim_ok. Qed.
Print Assumptions C68_string_left_trim_partial.

Theorem C68_string_right_trim_partial : forall bag s, trimmable bag s ->
  exists r, string_right_trim bag s = Val r /\ trimmed_right bag s r.
Proof. exact right_trim_ok. Qed.
Print Assumptions C68_string_right_trim_partial.

Theorem C68_string_trim_refuted : exists bag s, bytes bag /\ bytes s /\ string_left_trim bag s = Undef /\
  string_right_trim bag s = Undef.
Proof. exact string_trim_refuted. Qed.
Print Assumptions C68_string_trim_refuted.

Example C68_ex : trimmable [32; 9] [32; 97; 32; 98; 9; 32] /\
  string_trim [32; 9] [32; 97; 32; 98; 9; 32] = Val [97; 32; 98] /\
  trimmable [32; 9] [32; 32] /\ string_trim [32; 9] [32; 32] = Val [].
Proof. split; [|split; [reflexivity|split; [|reflexivity]]]; left; cbn [In]; lia. Qed.

(** ** C69: nstring-upcase and nstring-downcase convert the designated part of the string they are given and nothing
    else; string-upcase and string-downcase return a new string and leave the argument, and the name of a symbol, alone.

    Bounds outside the string are not checked, so the full statement is false. *)
Theorem C69_destructive_partial : forall f g m a b e, conversion f g ->
  (a < length m)%nat -> bytes (content m a) ->
  0 <= b <= match e with Some e => e | None => len (content m a) end ->
  match e with Some e => e | None => len (content m a) end <= len (content m a) ->
  exists m', nstring_case f m (Str a) b e = Val (m', Str a) /\ length m' = length m /\
    content m' a = map_part g (content m a) b (match e with Some e => e | None => len (content m a) end) /\
    (forall x, x <> a -> content m' x = content m x).
Proof.
  intros f g m a b e C. destruct (conversion_eq f g C) as [K X]. rewrite <- (map_part_ext f g _ _ _ X).
  apply nstring_case_ok. exact K.
Qed.
Print Assumptions C69_destructive_partial.

Theorem C69_copying_partial : forall f g m o a b e, conversion f g ->
  true_string o = Val a -> (a < length m)%nat -> bytes (content m a) ->
  0 <= b <= match e with Some e => e | None => len (content m a) end ->
  match e with Some e => e | None => len (content m a) end <= len (content m a) ->
  exists m', string_case f m o b e = Val (m', Str (length m)) /\
    content m' (length m) = map_part g (content m a) b (match e with Some e => e | None => len (content m a) end) /\
    (forall x, (x < length m)%nat -> content m' x = content m x).
Proof.
  intros f g m o a b e C. destruct (conversion_eq f g C) as [K X]. rewrite <- (map_part_ext f g _ _ _ X).
  apply string_case_ok. exact K.
Qed.
Print Assumptions C69_copying_partial.

(** [string] gives a string itself and a new string with the name of a symbol. *)
Theorem C69_string : forall m o a, true_string o = Val a -> (a < length m)%nat ->
  exists m' r, string_of m o = Val (m', Str r) /\ content m' r = content m a /\
    (forall x, (x < length m)%nat -> content m' x = content m x) /\
    (forall p, o = Sym p -> r = length m) /\ (forall p, o = Str p -> r = p /\ m' = m).
Proof. exact string_of_ok. Qed.
Print Assumptions C69_string.

Theorem C69_destructive_refuted : exists m e, nstring_case char_upcase m (Str 0) 0 (Some e) = Undef.
Proof. exact nstring_case_refuted. Qed.
Print Assumptions C69_destructive_refuted.

(** (string-upcase 'ab1z :start 1) *)
Example C69_ex : string_case char_upcase [[104]; [97; 98; 49; 122]] (Sym 1) 1 None =
    Val ([[104]; [97; 98; 49; 122]; [97; 66; 49; 90]], Str 2) /\
  nstring_case char_downcase [[104]; [65; 66; 67]] (Str 1) 1 (Some 2) = Val ([[104]; [65; 98; 67]], Str 1) /\
  conversion char_upcase (exchange lower_alphabet upper_alphabet) /\
  map_part (exchange lower_alphabet upper_alphabet) [97; 98; 49; 122] 1 4 = [97; 66; 49; 90].
Proof. split; [reflexivity|]. split; [reflexivity|]. split; [left; split; reflexivity|reflexivity]. Qed.

(** ** C70: substringp tells whether the first string occurs in the second, up to case.  (For strings below the default
    end of C67.) *)
Theorem C70_substringp_partial : forall sub s, len s < 100000000 ->
  exists r, substringp sub s = Val r /\ (r = true <-> occurs sub s).
Proof. exact substringp_ok. Qed.
Print Assumptions C70_substringp_partial.

Example C70_ex : substringp [66; 99] [97; 98; 67] = Val true /\ substringp [97; 99] [97; 98; 67] = Val false /\
  substringp [] [] = Val true /\ substringp [97; 98] [97] = Val false.
Proof. repeat split; reflexivity. Qed.
