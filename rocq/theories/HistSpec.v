(** Specification for C101: editing is done on the text before and the text after the cursor; the history is the list of the commands. *)
From Coq Require Import ZArith List Bool Arith.
Import ListNotations.
Open Scope nat_scope.

Inductive command := Head | Left | Right | Tail | DelNext | DelPrev | Clear | Insert (c : nat) | Nothing.
(** the keys of the editor, apart from those that end it and from refreshing *)
Definition key (k : nat) (c : command) : Prop :=
  (k = 1 /\ c = Head) \/ ((k = 2 \/ k = 8) /\ c = Left) \/ (k = 4 /\ c = DelNext) \/ ((k = 6 \/ k = 11) /\ c = Right) \/ (k = 12 /\ c = Tail) \/ (k = 21 /\ c = Clear) \/
  (k = 127 /\ c = DelPrev) \/ (32 <= k < 127 /\ c = Insert k) \/ ((k < 32 /\ ~ In k [1; 2; 3; 4; 6; 7; 8; 10; 11; 12; 13; 18; 21]) /\ c = Nothing).
Inductive does : command -> list nat * list nat -> list nat * list nat -> Prop :=
| DHead b a : does Head (b, a) ([], b ++ a)
| DTail b a : does Tail (b, a) (b ++ a, [])
| DLeft b x a : does Left (b ++ [x], a) (b, x :: a)
| DLeft0 a : does Left ([], a) ([], a)
| DRight b x a : does Right (b, x :: a) (b ++ [x], a)
| DRight0 b : does Right (b, []) (b, [])
| DDelNext b x a : does DelNext (b, x :: a) (b, a)
| DDelNext0 b : does DelNext (b, []) (b, [])
| DDelPrev b x a : does DelPrev (b ++ [x], a) (b, a)
| DDelPrev0 a : does DelPrev ([], a) ([], a)
| DClear b a : does Clear (b, a) ([], [])
| DInsert b a c : does (Insert c) (b, a) (b ++ [c], a)
| DNothing p : does Nothing p p.
Inductive edits : list nat -> list nat * list nat -> list nat * list nat -> Prop :=
| ENil p : edits [] p p
| ECons k c ks p q r : key k c -> does c p q -> edits ks q r -> edits (k :: ks) p r.

(** a text contains a pattern, small and capital letters being the same *)
Definition capital (c d : nat) : Prop := 97 <= c <= 122 /\ d = c - 32 \/ ~ (97 <= c <= 122) /\ d = c.
Definition same_letter (c d : nat) : Prop := exists u, capital c u /\ capital d u.
Definition contains (pattern str : list nat) : Prop := exists pre mid post, str = pre ++ mid ++ post /\ Forall2 same_letter pattern mid.
