(** 64-bit machine words as [Z].

    The kernel is compiled with [eusinteger_t = long] (64 bits, eus.h:13-30); the C code relies on
    two's complement wrap-around of signed arithmetic (formally undefined in ISO C; recorded in the
    trusted base).  A C [long] is a [Z] in [-2^63, 2^63). *)
From Coq Require Export ZArith List Lia Bool.
From Coq Require Export ZifyBool ZifyNat ZifyN.
Export ListNotations.
Open Scope Z_scope.

Definition W63 : Z := 2 ^ 63.
Definition W64 : Z := 2 ^ 64.

(** Reduction of an integer to the C [long] with the same bits. *)
Definition wrap64 (z : Z) : Z := (z + 2 ^ 63) mod 2 ^ 64 - 2 ^ 63.

(** Reduction to a C [int] (32 bits). *)
Definition wrap32 (z : Z) : Z := (z + 2 ^ 31) mod 2 ^ 32 - 2 ^ 31.

Definition in_long (z : Z) : Prop := - 2 ^ 63 <= z < 2 ^ 63.

(** [MASK] and [MSB], eus.h:125-131 *)
Definition MASK : Z := 2 ^ 63 - 1.

Ltac Zify.zify_post_hook ::= Z.div_mod_to_equations.

Lemma wrap64_id z : in_long z -> wrap64 z = z.
Proof. unfold wrap64, in_long. intros. rewrite Z.mod_small; lia. Qed.

Lemma wrap64_range z : in_long (wrap64 z).
Proof. unfold wrap64, in_long. lia. Qed.

Lemma wrap64_eqm z : exists k, wrap64 z = z + k * 2 ^ 64.
Proof. unfold wrap64. exists (- ((z + 2 ^ 63) / 2 ^ 64)). lia. Qed.

Lemma wrap64_add_64 z k : wrap64 (z + k * 2 ^ 64) = wrap64 z.
Proof.
  unfold wrap64. replace (z + k * 2 ^ 64 + 2 ^ 63) with (z + 2 ^ 63 + k * 2 ^ 64) by lia.
  rewrite Z.mod_add; lia.
Qed.

Lemma wrap32_id z : - 2 ^ 31 <= z < 2 ^ 31 -> wrap32 z = z.
Proof. unfold wrap32. intros. rewrite Z.mod_small; lia. Qed.

(** [x & MASK] is reduction mod 2^63. *)
Lemma land_MASK z : Z.land z MASK = z mod 2 ^ 63.
Proof. unfold MASK. change (2 ^ 63 - 1) with (Z.ones 63). apply Z.land_ones. lia. Qed.

Lemma land_ones_mod z n m : 0 <= n -> m = 2 ^ n - 1 -> Z.land z m = z mod 2 ^ n.
Proof. intros Hn ->. rewrite <- Z.land_ones by exact Hn. f_equal. rewrite Z.ones_equiv. lia. Qed.
