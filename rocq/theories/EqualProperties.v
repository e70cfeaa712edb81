(** Properties C20 and C21. *)
From Verif Require Import EqualModel EqualProofs.

(** class 0 symbols, 1 strings, 2 conses, 3 vectors, 4 a user class with one slot (also the bignum layout: one slot
    holding an integer vector), 5 integer vectors *)
Definition demo_classes := mkClasses (Nat.eqb 0) (Nat.eqb 1) (Nat.eqb 2) (fun c => match c with 0 => 6 | 2 => 2 | 4 => 1 | _ => 0 end).
(** 0: symbol x with name "x" (1); 2,3: strings "ab"; 4 = (1 . ("ab" . x)), 5 its cdr; 6, 7 another copy;
    8,9: one-slot instances over equal integer vectors 10,11; 12: a circular cons *)
Definition demo_store : store := fun a => match a with
  | 0 => mkObj 0 FIXED 0 [WNum 0; WNum 0; WNum 0; WNum 0; WPtr 1; WNum 0] []
  | 1 => mkObj 1 CHAR 1 [] [120%Z]
  | 2 | 3 => mkObj 1 CHAR 2 [] [(97 + 98 * 256)%Z]
  | 4 => mkObj 2 FIXED 0 [WNum 1; WPtr 5] [] | 5 => mkObj 2 FIXED 0 [WPtr 2; WPtr 0] []
  | 6 => mkObj 2 FIXED 0 [WNum 1; WPtr 7] [] | 7 => mkObj 2 FIXED 0 [WPtr 3; WPtr 0] []
  | 8 => mkObj 4 FIXED 0 [WPtr 10] [] | 9 => mkObj 4 FIXED 0 [WPtr 11] []
  | 10 | 11 => mkObj 5 INT 2 [] [7%Z; 8%Z]
  | 12 => mkObj 2 FIXED 0 [WNum 1; WPtr 12] []
  | _ => mkObj 3 POINTER 0 [] [] end.
Lemma demo_wf : wf_store demo_classes demo_store.
Proof. intro a. do 13 (destruct a as [|a]; [cbn; repeat split; intros; try discriminate; auto with arith|]). cbn. repeat split; auto; discriminate. Qed.
Lemma demo_wfc : wf_classes demo_classes demo_store.
Proof.
  split; [|split].
  - intros [|[|[|c]]] H; try discriminate. cbn. auto.
  - intros a H. do 13 (destruct a as [|a]; [try discriminate H; reflexivity|]). discriminate H.
  - intros a H. do 13 (destruct a as [|a]; [try discriminate H; cbn; auto|]). discriminate H.
Qed.

(** ** C20.  On finite (acyclic) data equal always answers, and answers T exactly when the two objects unfold to the
    same tree. *)
Theorem C20_equal_is_structural : forall C h x y tx ty, wf_store C h -> stands_for C h x tx -> stands_for C h y ty ->
  exists r, EQUAL C h x y r /\ (r = true <-> tx = ty).
Proof. intros C h x y tx ty W. apply equal_structure. exact W. Qed.
Print Assumptions C20_equal_is_structural.
Theorem C20_eq_implies_equal : forall C h x, EQUAL C h x x true.
Proof. intros C h x. exists 1. cbn [equal]. replace (word_eqb x x) with true; [reflexivity|]. symmetry. apply word_eqb_eq. reflexivity. Qed.
Print Assumptions C20_eq_implies_equal.
Theorem C20_symmetric : forall C h x y r, wf_store C h -> acyclic C h x -> acyclic C h y -> EQUAL C h x y r -> EQUAL C h y x r.
Proof.
  intros C h x y r W [d [tx Sx]] [e [ty Sy]] H. assert (Sx' : stands_for C h x tx) by (exists d; exact Sx). assert (Sy' : stands_for C h y ty) by (exists e; exact Sy).
  destruct (equal_structure C h W y x ty tx Sy' Sx') as [r' [H1 H2]]. destruct (equal_structure C h W x y tx ty Sx' Sy') as [r'' [H3 H4]].
  assert (r'' = r) by (eapply EQUAL_det; eauto). subst r''. replace r with r'; [exact H1|]. destruct r, r'; try reflexivity.
  - apply H2. symmetry. apply H4. reflexivity.
  - symmetry. apply H4. symmetry. apply H2. reflexivity.
Qed.
Print Assumptions C20_symmetric.
Theorem C20_transitive : forall C h x y z, wf_store C h -> acyclic C h x -> acyclic C h y -> acyclic C h z ->
  EQUAL C h x y true -> EQUAL C h y z true -> EQUAL C h x z true.
Proof.
  intros C h x y z W [d [tx Sx]] [e [ty Sy]] [f [tz Sz]] H1 H2. rewrite (EQUAL_iff C h W x y tx ty) in H1 by (eexists; eauto).
  rewrite (EQUAL_iff C h W y z ty tz) in H2 by (eexists; eauto). rewrite (EQUAL_iff C h W x z tx tz) by (eexists; eauto). congruence.
Qed.
Print Assumptions C20_transitive.
(** two copies of (1 "ab" . x): different conses, different strings, the same symbol *)
Example C20_ex : equal 4 demo_classes demo_store (WPtr 4) (WPtr 6) = Ret true /\ unfold 4 demo_classes demo_store (WPtr 4) = unfold 4 demo_classes demo_store (WPtr 6) /\
  unfold 4 demo_classes demo_store (WPtr 4) <> None /\ equal 4 demo_classes demo_store (WPtr 4) (WPtr 5) = Ret false.
Proof. repeat split; vm_compute; try reflexivity; discriminate. Qed.
(** a circular list is not acyclic: no depth unfolds it *)
Example C20_cyclic : forall d, unfold d demo_classes demo_store (WPtr 12) = None.
Proof. induction d as [|d IH]; [reflexivity|]. destruct d as [|d]; [reflexivity|]. remember (S d) as sd. cbn - [unfold_all]. subst sd. cbn [unfold_all]. rewrite IH. reflexivity. Qed.

(** ** C21 on objects whose hash code does not depend on an address *)
Theorem C21_equal_hash_partial : forall C h numhash m fuel x y k, wf_store C h -> wf_classes C h -> hashable C h x ->
  EQUAL C h x y true -> SXHASH fuel C h numhash m x = Ret k -> SXHASH fuel C h numhash m y = Ret k.
Proof. intros C h numhash m fuel x y k W WC Hx E H. unfold SXHASH in *. rewrite <- (proj1 (sxhash_EQ C h numhash W WC fuel) x y E Hx). exact H. Qed.
Print Assumptions C21_equal_hash_partial.
Example C21_ex : hashable demo_classes demo_store (WPtr 4) /\ EQUAL demo_classes demo_store (WPtr 4) (WPtr 6) true /\
  exists k, SXHASH 5 demo_classes demo_store (fun z => z) 1000 (WPtr 4) = Ret k /\ SXHASH 5 demo_classes demo_store (fun z => z) 1000 (WPtr 6) = Ret k /\ k <> 0%Z.
Proof.
  split; [|split].
  - apply h_cons; try reflexivity. apply hl_cons; [reflexivity|apply h_num|]. cbn. apply hl_cons; [reflexivity|apply h_str; reflexivity|]. cbn. apply hl_end. reflexivity.
  - exists 4. reflexivity.
  - eexists. split; [vm_compute; reflexivity|]. split; [vm_compute; reflexivity|discriminate].
Qed.
(** instances (and bignums, whose digits are in a separate vector) hash by address *)
Theorem C21_refuted : exists C h x y k l, wf_store C h /\ wf_classes C h /\ EQUAL C h x y true /\
  SXHASH 5 C h (fun z => z) 1000 x = Ret k /\ SXHASH 5 C h (fun z => z) 1000 y = Ret l /\ k <> l.
Proof.
  exists demo_classes, demo_store, (WPtr 8), (WPtr 9), 8%Z, 9%Z. split; [apply demo_wf|]. split; [apply demo_wfc|].
  split; [exists 3; reflexivity|]. split; [vm_compute; reflexivity|]. split; [vm_compute; reflexivity|discriminate].
Qed.
Print Assumptions C21_refuted.
