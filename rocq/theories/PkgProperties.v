(** Properties C25, C26, C27. *)
From Verif Require Import PkgModel PkgProofs PkgProofs2.

(** package 0 is the keyword package, package 2 uses package 1 *)
Definition demo := [([], []); ([], [2]); ([1], [])] : list (list nat * list nat).
Definition symA := mkSym 0 [65%N].      (* "A" *)
Definition symB := mkSym 1 [125%N].     (* "}", in the same bucket as "A" *)

Example demo_ok : graph_ok demo /\ keyword_alone demo.
Proof.
  split; [unfold graph_ok, demo; repeat constructor|].
  split; [reflexivity|]. apply Forall_forall. intros x H. cbn in H. unfold keywordpkg. intuition (subst; cbn in *; lia).
Qed.
Example demo_collide : start (sname symA) SYMBOLHASH = start (sname symB) SYMBOLHASH.
Proof. vm_compute. reflexivity. Qed.

(** ** C25 interning *)
(** In every state reached by interning, exporting internal symbols and uninterning: interning a name,
    then any further interns in any packages, then interning it again returns the same symbol, and the
    symbol has that name. *)
Theorem C25_intern_idempotent : forall graph st n p interns_between,
  graph_ok graph -> keyword_alone graph -> reach false graph st -> p < length graph ->
  Forall (interns (length graph)) interns_between ->
  exists st' s rs, run false st (Intern n p :: interns_between ++ [Intern n p]) = Ret (st', Some s :: rs ++ [Some s]) /\
    length rs = length interns_between /\ sname s = n.
Proof. exact intern_idempotent. Qed.
Print Assumptions C25_intern_idempotent.

Theorem C25_names_distinguish : forall graph st n p n' p' interns_between,
  graph_ok graph -> keyword_alone graph -> reach false graph st -> p < length graph -> p' < length graph ->
  Forall (interns (length graph)) interns_between -> n <> n' ->
  exists st' s s' rs, run false st (Intern n p :: interns_between ++ [Intern n' p']) =
    Ret (st', Some s :: rs ++ [Some s']) /\ sid s <> sid s'.
Proof. exact intern_distinct. Qed.
Print Assumptions C25_names_distinguish.

(** With sys::exportall switched on the first claim fails: package 3 uses 1 and 2, finds FOO in 2, and
    after FOO has been interned in 1 finds that one instead. *)
Theorem C25_intern_idempotent_exportall_refuted : exists graph n p os st' s s' rs,
  graph_ok graph /\ keyword_alone graph /\ p < length graph /\ Forall (interns (length graph)) os /\
  run true (initial graph) (Intern n 2 :: Intern n p :: os ++ [Intern n p]) = Ret (st', Some s :: Some s :: rs ++ [Some s']) /\ sid s <> sid s'.
Proof.
  exists [([], []); ([], [3]); ([], [3]); ([1; 2], [])], [70%N], 3, [Intern [70%N] 1].
  eexists _, (mkSym 0 [70%N]), (mkSym 1 [70%N]), [_].
  split; [|split; [|split; [|split; [|split]]]].
  - unfold graph_ok. repeat constructor.
  - split; [reflexivity|]. apply Forall_forall. intros x H. cbn in H. unfold keywordpkg. intuition (subst; cbn in *; lia).
  - cbn. lia.
  - repeat constructor.
  - vm_compute. reflexivity.
  - discriminate.
Qed.
Print Assumptions C25_intern_idempotent_exportall_refuted.

Example C25_ex : exists st s0 s1 s2, run false (initial demo) [Intern [65%N] 1; Intern [125%N] 1; Intern [65%N] 1; Intern [65%N] 2] =
    Ret (st, [Some s0; Some s1; Some s0; Some s2]) /\ map sid [s0; s1; s2] = [0; 1; 2].
Proof. eexists _, _, _, _. split; vm_compute; reflexivity. Qed.
(** inheritance: after an export package 2 finds the symbol of package 1 *)
Example C25_ex2 : exists st rs, run false (initial demo) [Intern [65%N] 1; Export symA 1; Intern [65%N] 2] = Ret (st, rs ++ [Some symA]).
Proof. eexists _, [_; _]. vm_compute. reflexivity. Qed.

(** ** C26 symbol lookup terminates *)
(** full statement: [forall ea graph os, graph_ok graph -> run ea (initial graph) os <> Hang] *)
Theorem C26_lookup_terminates_refuted : exists graph os,
  graph_ok graph /\ run false (initial graph) os = Hang.
Proof.
  exists demo, (Intern [65%N] 1 :: repeat (Import symA 1) 59 ++ [Intern [66%N] 1]). split; [apply demo_ok|].
  vm_compute. reflexivity.
Qed.
Print Assumptions C26_lookup_terminates_refuted.

Theorem C26_lookup_terminates_partial : forall export_all graph os,
  graph_ok graph -> Forall (importless (length graph)) os -> run export_all (initial graph) os <> Hang.
Proof. exact initial_terminates. Qed.
Print Assumptions C26_lookup_terminates_partial.

(** a history that grows the table: 40 symbols *)
Example C26_ex : exists st rs, run false (initial demo) (map (fun i => Intern [N.of_nat i] 1) (seq 65 40)) = Ret (st, rs) /\
  length (int (pkg_at st 1)) = 100 /\ length rs = 40.
Proof. eexists _, _. split; [vm_compute; reflexivity|]. vm_compute. auto. Qed.

(** ** C27 removing a symbol *)
(** full statement: unexport and unintern of a symbol leave every other symbol accessible and make that one
    inaccessible *)
Theorem C27_unexport_refuted : exists graph before other n p q st1 st2 rs1 rs2,
  graph_ok graph /\ sname other <> n /\
  run false (initial graph) (before ++ [Intern (sname other) q]) = Ret (st1, rs1 ++ [Some other]) /\
  run false (initial graph) (before ++ [Unexport (mkSym 0 n) p; Intern (sname other) q]) = Ret (st2, rs2 ++ [Some (mkSym 2 (sname other))]).
Proof.
  exists demo, [Intern (sname symA) 1; Intern (sname symB) 1; Export symA 1; Export symB 1], symB, (sname symA), 1, 2.
  eexists _, _, [_; _; _; _], [_; _; _; _; _]. split; [apply demo_ok|]. split; [discriminate|].
  split; vm_compute; reflexivity.
Qed.
Print Assumptions C27_unexport_refuted.

(** a symbol exported again after its neighbour was uninterned is in the table twice, and uninterning it
    leaves the other copy accessible to users of the package *)
Theorem C27_unintern_duplicate_refuted : exists graph s st rs,
  graph_ok graph /\
  run false (initial graph) [Intern (sname symA) 1; Intern (sname s) 1; Export symA 1; Export s 1; Unintern symA 1;
    Export s 1; Unintern s 1; Intern (sname s) 2] = Ret (st, rs ++ [Some s]).
Proof. exists demo, symB. eexists _, [_; _; _; _; _; _; _]. split; [apply demo_ok|]. vm_compute. reflexivity. Qed.
Print Assumptions C27_unintern_duplicate_refuted.

(** uninterning goes by name: a symbol of another package takes this package's symbol with it *)
Theorem C27_unintern_wrong_symbol_refuted : exists graph s s' st st' rs,
  graph_ok graph /\ sid s <> sid s' /\
  run false (initial graph) [Intern (sname s) 1; Intern (sname s') 2] = Ret (st, [Some s; Some s']) /\
  run false (initial graph) [Intern (sname s) 1; Intern (sname s') 2; Unintern s' 1] = Ret (st', rs) /\
  find_symbol st (sname s) 1 = Ret (Some s) /\ find_symbol st' (sname s) 1 = Ret None.
Proof.
  exists demo, symA, (mkSym 1 [65%N]). eexists _, _, _. split; [apply demo_ok|]. split; [discriminate|].
  split; [vm_compute; reflexivity|]. split; [vm_compute; reflexivity|]. split; vm_compute; reflexivity.
Qed.
Print Assumptions C27_unintern_wrong_symbol_refuted.

(** In states reached by interning, uninterning and exporting symbols that are internal to the package and
    not yet external, uninterning removes the name from the package and nothing else. *)
Theorem C27_unintern_partial : forall export_all graph st s p,
  graph_ok graph -> reach export_all graph st -> p < length graph ->
  exists st', unintern st s p = Ret st' /\ reach export_all graph st' /\
    find_symbol st' (sname s) p = Ret None /\
    lookup (ext (pkg_at st' p)) (sname s) = None /\
    (forall q n, q < length graph -> q <> p \/ n <> sname s ->
       find_symbol st' n q = find_symbol st n q /\
       lookup (ext (pkg_at st' q)) n = lookup (ext (pkg_at st q)) n).
Proof. exact unintern_exact. Qed.
Print Assumptions C27_unintern_partial.

(** colliding symbols: removing the first leaves the second *)
Example C27_ex : exists st rs, run false (initial demo) [Intern (sname symA) 1; Intern (sname symB) 1; Unintern symA 1; Intern (sname symB) 1] =
  Ret (st, rs ++ [Some symB]).
Proof. eexists _, [_; _; _]. vm_compute. reflexivity. Qed.
Example C27_hyp : exists st, reach false demo st /\ find_symbol st (sname symA) 1 = Ret (Some symA) /\
  lookup (ext (pkg_at st 1)) (sname symA) = Some symA.
Proof.
  destruct (intern false (initial demo) [65%N] 1) as [[st1 s1]| |] eqn:E1; try (vm_compute in E1; discriminate).
  destruct (export st1 symA 1) as [st2| |] eqn:E2; try (vm_compute in E1; injection E1 as <- <-; vm_compute in E2; discriminate).
  assert (R1 : reach false demo st1).
  { apply (reach_intern _ _ (initial demo) [65%N] 1 st1 s1); [constructor|vm_compute; auto|exact E1]. }
  exists st2. split.
  - apply (reach_export _ _ st1 symA 1 st2 R1); [| | |exact E2]; vm_compute in E1; injection E1 as <- <-; vm_compute; auto.
  - vm_compute in E1. injection E1 as <- <-. vm_compute in E2. injection E2 as <-. vm_compute. auto.
Qed.
