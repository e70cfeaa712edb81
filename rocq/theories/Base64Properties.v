(** Property C75: base 64. *)
From Verif Require Import Word StrModel StrProofs Base64Model Base64Proofs.

(** ** C75: base64encode writes the text of RFC 4648 in lines of 76 characters, and base64decode gives back the bytes,
    whatever blanks and line feeds are in the text.

    The second half is false when the number of bytes is not a multiple of 3: one zero byte is added. *)
Theorem C75_encode : forall s, bytes s -> exists cs t, base64encode s = Val t /\ encodes s cs /\ lines cs t.
Proof. exact encode_ok. Qed.
Print Assumptions C75_encode.

Theorem C75_decode_partial : forall s cs t, bytes s -> encodes s cs -> filter visible t = cs ->
  base64decode t = Val (s ++ if (length s mod 3 =? 0)%nat then [] else [0]).
Proof. exact decode_ok. Qed.
Print Assumptions C75_decode_partial.

Theorem C75_round_trip_partial : forall s, bytes s -> exists t, base64encode s = Val t /\
  base64decode t = Val (s ++ if (length s mod 3 =? 0)%nat then [] else [0]).
Proof. exact encode_decode. Qed.
Print Assumptions C75_round_trip_partial.

Theorem C75_decode_refuted : exists s t u, bytes s /\ base64encode s = Val t /\ base64decode t = Val u /\ u <> s.
Proof. exact decode_refuted. Qed.
Print Assumptions C75_decode_refuted.

(** The bytes of "M", 255, "n", "a" are "Tf9uYQ==" *)
Example C75_ex : bytes [77; 255; 110; 97] /\
  base64encode [77; 255; 110; 97] = Val [84; 102; 57; 117; 89; 81; 61; 61] /\
  base64decode [84; 102; 10; 57; 117] = Val [77; 255; 110].
Proof.
  split; [constructor; [lia|]; constructor; [lia|]; constructor; [lia|]; constructor; [lia|]; constructor|].
  split; vm_compute; reflexivity.
Qed.

(** 57 bytes make one line of 76 characters and its line feed. *)
Example C75_line_ex : exists t, base64encode (repeat 0 58) = Val (repeat 65 76 ++ 10 :: t) /\ t = [65; 65; 61; 61].
Proof. eexists. split; [vm_compute; reflexivity|reflexivity]. Qed.
