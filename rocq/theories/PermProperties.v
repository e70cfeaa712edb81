(** C78: [list-permutation] and the permutation generator list every permutation of a non-empty list, and [combi] every
    combination, each once. *)
From Coq Require Import Permutation Factorial.
From Verif Require Import MapModel PermModel PermProofs.

(** The list holds exactly the permutations; there are n! of them, and no two agree if the elements differ. *)
Theorem C78_permutations_partial : forall (A : Type) (x : list A), x <> [] ->
  (forall p, In p (list_permutation x) <-> Permutation x p) /\
  length (list_permutation x) = fact (length x) /\
  (NoDup x -> NoDup (list_permutation x)).
Proof.
  intros A x N. exact (conj (fun p => permutations_all x p N) (conj (permutations_number x N) (permutations_once x))).
Qed.
Print Assumptions C78_permutations_partial.

(** The empty list has a permutation too, itself; it is left out. *)
Theorem C78_permutations_refuted : exists x p : list nat, Permutation x p /\ ~ In p (list_permutation x).
Proof. exists [], []. split; [apply perm_nil|intros []]. Qed.
Print Assumptions C78_permutations_refuted.

(** Sending [:next] to a new generator again and again returns every permutation, each once, and then NIL. *)
Theorem C78_generator : forall (A : Type) (l : list A), l <> [] -> exists xs,
  emits (init l) xs /\ length xs = fact (length l) /\ (forall p, In p xs <-> Permutation l p) /\ (NoDup l -> NoDup xs).
Proof. exact @generator_ok. Qed.
Print Assumptions C78_generator.

(** And [:all] collects them. *)
Theorem C78_generator_all : forall (A : Type) (l : list A) fuel, l <> [] -> fact (length l) < fuel -> exists xs,
  all fuel (init l) [] = Some xs /\ length xs = fact (length l) /\ (forall p, In p xs <-> Permutation l p).
Proof. exact @generator_all. Qed.
Print Assumptions C78_generator_all.

(** [combi] lists the sublists of length r, in the order of their elements in the list; each once if the elements differ. *)
Theorem C78_combi : forall (A : Type) (l : list A) r, r <> 0 -> exists L, combi (length l) l r = Some L /\
  (forall z, In z L <-> sublist z l /\ length z = r) /\ length L = binomial (length l) r /\ (NoDup l -> NoDup L).
Proof.
  intros A l r R. exists (comb l r). exact (conj (combi_comb (length l) l r (le_n _))
    (conj (fun z => comb_in l r z R) (conj (comb_length l r R) (comb_nodup l r R)))).
Qed.
Print Assumptions C78_combi.

(** [combi2] is [combi] for two. *)
Theorem C78_combi2 : forall (A : Type) (l : list A), combi2 l = combi (length l) l 2.
Proof. intros A l. rewrite (combi_comb (length l) l 2 (le_n _)). exact (combi2_comb l). Qed.
Print Assumptions C78_combi2.

Example C78_ex :
  list_permutation [1; 2; 3] = [[3; 2; 1]; [3; 1; 2]; [1; 3; 2]; [2; 3; 1]; [2; 1; 3]; [1; 2; 3]] /\
  all 7 (init [1; 2; 3]) [] = Some [[3; 2; 1]; [3; 1; 2]; [1; 3; 2]; [2; 3; 1]; [2; 1; 3]; [1; 2; 3]] /\
  all 6 (init [1; 2; 3]) [] = None /\
  combi 4 [1; 2; 3; 4] 2 = Some [[1; 4]; [1; 3]; [1; 2]; [2; 4]; [2; 3]; [3; 4]] /\
  combi2 [1; 2; 3; 4] = Some [[1; 4]; [1; 3]; [1; 2]; [2; 4]; [2; 3]; [3; 4]] /\
  combi 4 [1; 2; 3; 4] 3 = Some [[1; 3; 4]; [1; 2; 3]; [1; 2; 4]; [2; 3; 4]].
Proof. vm_compute. repeat split. Qed.
