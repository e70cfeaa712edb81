(** Properties C72 and C73: escaped URLs, numbered file names. *)
From Verif Require Import Word BigModel BigSpec IntTextModel IntTextProofs StrModel StrProofs HexModel HexProofs UrlModel UrlProofs.

(** ** C72: unescape-url gives back what was given to escape-url, and the escaped text has only the characters allowed.

    False for a string with a Return, which comes back as a Newline. *)
Theorem C72_round_trip_partial : forall down q q' s, bytes s -> ~ In 13 s -> (q = true -> q' = true) ->
  exists t, escape_url down q s = Val t /\ url_text t /\ unescape_url q' t = Val s.
Proof. exact escape_unescape. Qed.
Print Assumptions C72_round_trip_partial.

Theorem C72_return_refuted : exists s t, bytes s /\ escape_url true true s = Val t /\ unescape_url true t = Val [10] /\ s = [13].
Proof. exact escape_return_refuted. Qed.
Print Assumptions C72_return_refuted.

Theorem C72_plus : forall q s, ~ In 37 s ->
  unescape_url q s = Val (map (fun c => if (c =? 43) && q then SPACE else c) s).
Proof. exact unescape_plain. Qed.
Print Assumptions C72_plus.

(** "a b%" with the space as + and a byte above 127 *)
Example C72_ex : bytes [97; 32; 37; 200] /\ ~ In 13 [97; 32; 37; 200] /\
  escape_url true true [97; 32; 37; 200] = Val [97; 43; 37; 50; 53; 37; 99; 56] /\
  unescape_url true [97; 43; 37; 50; 53; 37; 99; 56] = Val [97; 32; 37; 200] /\
  escape_url false false [32] = Val [37; 50; 48] /\
  unescape_url false [97; 43; 98] = Val [97; 43; 98] /\ unescape_url true [97; 43; 98] = Val [97; 32; 98].
Proof.
  split; [constructor; [lia|]; constructor; [lia|]; constructor; [lia|]; constructor; [lia|]; constructor|].
  split; [cbn [In]; lia|]. split; [vm_compute; reflexivity|]. split; [vm_compute; reflexivity|]. split; [vm_compute; reflexivity|].
  split; vm_compute; reflexivity.
Qed.

(** ** C73: digits-string writes the number with exactly the given number of decimal digits, and sequential-file-name gives
    different names, in order, to different numbers that have no more digits than that.

    False for other bases (the base is lost in the recursion) and without the bound on the number. *)
Theorem C73_digits_partial : forall k n, 0 <= n < 2 ^ 61 ->
  exists t ds, digits_string n (S k) 10 = Val t /\ decimal t ds /\ length t = S k /\ eval 10 ds = n mod 10 ^ Z.of_nat (S k).
Proof. exact digits_string_ok. Qed.
Print Assumptions C73_digits_partial.

Theorem C73_order_partial : forall head ext k n m, 0 <= n -> n < m -> m < 10 ^ Z.of_nat (S k) -> m < 2 ^ 61 ->
  exists a b, sequential_file_name head n ext (S k) = Val a /\ sequential_file_name head m ext (S k) = Val b /\ lex_lt a b.
Proof. exact sequential_order. Qed.
Print Assumptions C73_order_partial.

(** [lex_lt] is irreflexive, so the names differ. *)
Theorem C73_different : forall a, ~ lex_lt a a.
Proof. exact lex_lt_irrefl. Qed.
Print Assumptions C73_different.

Theorem C73_collision_refuted : exists n m a, n <> m /\
  sequential_file_name [] n [] 4 = Val a /\ sequential_file_name [] m [] 4 = Val a.
Proof. exact sequential_refuted. Qed.
Print Assumptions C73_collision_refuted.

Theorem C73_base_refuted : digits_string 8 2 8 = Val [49; 56].
Proof. exact digits_base_refuted. Qed.
Print Assumptions C73_base_refuted.

(** f0009.l comes before f0010.l *)
Example C73_ex : sequential_file_name [102] 9 [108] 4 = Val [102; 48; 48; 48; 57; 46; 108] /\
  sequential_file_name [102] 10 [108] 4 = Val [102; 48; 48; 49; 48; 46; 108] /\ 10 < 10 ^ Z.of_nat 4.
Proof. split; [vm_compute; reflexivity|]. split; vm_compute; reflexivity. Qed.
