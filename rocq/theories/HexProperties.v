(** Property C74: #x and #o numerals. *)
From Coq Require Import List ZArith Bool Lia.
From Verif Require Import Word BigModel BigSpec IntTextModel IntTextProofs HexModel HexProofs.
Import ListNotations.
Open Scope Z_scope.

(** ** C74: #x followed by hexadecimal digits reads as that number, #o likewise; nothing else is consumed.

    False for more than 64 hexadecimal digits (the rest is left in the stream), for octal numbers from 2^61 on, which
    are not the objects the arithmetic functions return, from 2^63 on, and for 32 octal digits (the buffer is overrun). *)
Theorem C74_hex_partial : forall val txt ds rest, Forall2 hex_digit txt ds -> ds <> [] -> (length txt <= 64)%nat ->
  (length txt = 64%nat \/ ends hex_digit rest) ->
  exists o, read_sharp_hex val (txt ++ rest) = Ok (o, rest) /\ canonical o /\ value o = eval 16 ds.
Proof. exact read_hex_ok. Qed.
Print Assumptions C74_hex_partial.

Theorem C74_octal_partial : forall txt ds rest, Forall2 octal_digit txt ds -> ds <> [] -> (length txt < 32)%nat ->
  ends octal_digit rest -> eval 8 ds < 2 ^ 63 ->
  exists o, read_sharp_octal (txt ++ rest) = Ok (o, rest) /\ legal o /\ value o = eval 8 ds /\
    (eval 8 ds < 2 ^ 61 -> canonical o).
Proof. exact read_octal_ok. Qed.
Print Assumptions C74_octal_partial.

(** What ~x prints for a number below 16^64 reads back with #x. *)
Theorem C74_print_read_partial : forall down val o txt rest, canonical o -> 0 <= value o < 16 ^ 64 ->
  print_integer 16 down o = Some txt -> ends hex_digit rest ->
  exists o', read_sharp_hex val (txt ++ rest) = Ok (o', rest) /\ canonical o' /\ value o' = value o.
Proof. exact print_read_hex. Qed.
Print Assumptions C74_print_read_partial.

Theorem C74_hex_refuted : exists txt ds o, Forall2 hex_digit txt ds /\ read_sharp_hex 0 txt = Ok (o, [48]) /\
  value o <> eval 16 ds.
Proof. exact hex_long_refuted. Qed.
Print Assumptions C74_hex_refuted.

Theorem C74_octal_refuted : exists txt ds o, Forall2 octal_digit txt ds /\ read_sharp_octal txt = Ok (o, []) /\
  value o = 2 ^ 61 /\ eval 8 ds = 2 ^ 61 /\ ~ canonical o.
Proof. exact octal_canonical_refuted. Qed.
Print Assumptions C74_octal_refuted.

Theorem C74_octal_long_refuted : exists txt ds, Forall2 octal_digit txt ds /\ (length txt < 32)%nat /\
  read_sharp_octal txt = UB.
Proof. exact octal_long_refuted. Qed.
Print Assumptions C74_octal_long_refuted.

Theorem C74_octal_buffer_refuted : exists txt ds, Forall2 octal_digit txt ds /\ read_sharp_octal txt = UB.
Proof. exact octal_buffer_refuted. Qed.
Print Assumptions C74_octal_buffer_refuted.

(** "fF)" and a number of two words: 1 followed by 16 zeros is 2^64. *)
Example C74_ex : Forall2 hex_digit [102; 70] [15; 15] /\ ends hex_digit [41] /\
  read_sharp_hex 0 [102; 70; 41] = Ok (Imm 1022, [41]) /\
  read_sharp_hex 0 (49 :: repeat 48 16) = Ok (Big [0; 2], []) /\ eval 16 (1 :: repeat 0 16) = bigval [0; 2] /\
  read_sharp_octal [49; 55; 32] = Ok (Imm 62, [32]).
Proof.
  split; [constructor; [right; lia|constructor; [right; lia|constructor]]|].
  split; [intros c r d E [H|H]; inversion E; subst; lia|]. repeat split; vm_compute; reflexivity.
Qed.
