(** Property C76: the mapping functions. *)
From Verif Require Import MapModel MapProofs.

(** ** C76: the mapping functions call the function on successive elements, from left to right, as often as there are
    elements, stop where they should, and collect the values in order.

    False for lists of different lengths (an error instead of the shortest), for the value of mapc (NIL), for mapcon (each
    part is reversed) and for reduce from the end. *)
Theorem C76_mapcar_partial : forall St A B (f : list A -> comp St B) ls xs s s' r,
  ls <> [] -> rows ls xs -> calls f xs s s' r -> MAPCAR f ls s = (s', r).
Proof. exact @mapcar_ok. Qed.
Print Assumptions C76_mapcar_partial.

Theorem C76_mapc_partial : forall St A B (f : list A -> comp St B) ls xs s s' r,
  ls <> [] -> rows ls xs -> calls f xs s s' r -> MAPC f ls s = (s', option_map (fun _ => []) r).
Proof. exact @mapc_ok. Qed.
Print Assumptions C76_mapc_partial.

Theorem C76_mapcan_partial : forall St A B (f : list A -> comp St (list B)) ls xs s s' r,
  ls <> [] -> rows ls xs -> calls f xs s s' r -> MAPCAN f ls s = (s', option_map (@concat B) r).
Proof. exact @mapcan_ok. Qed.
Print Assumptions C76_mapcan_partial.

(** The calls are determined: the rows exist as soon as no list is shorter than the first, and a run exists. *)
Theorem C76_rows_exist : forall A (ls : list (list A)), long_enough ls -> exists xs, rows ls xs.
Proof. exact @rows_exist. Qed.
Print Assumptions C76_rows_exist.

Theorem C76_calls_total : forall St X B (f : X -> comp St B) xs s, exists s' r, calls f xs s s' r.
Proof. exact @calls_total. Qed.
Print Assumptions C76_calls_total.

Theorem C76_maplist_partial : forall St A B (f : list (list A) -> comp St B) l more s s' r,
  calls f (map (fun i => map (skipn i) (l :: more)) (seq 0 (length l))) s s' r -> maplist f l more s = (s', r).
Proof. exact @maplist_ok. Qed.
Print Assumptions C76_maplist_partial.

Theorem C76_mapcon_partial : forall St A B (f : list (list A) -> comp St (list B)) l more s s' bs,
  calls f (map (fun i => map (skipn i) (l :: more)) (seq 0 (length l))) s s' (Some bs) ->
  Forall (fun b => length b <= 1) bs -> mapcon f l more s = (s', Some (concat bs)).
Proof. exact @mapcon_short. Qed.
Print Assumptions C76_mapcon_partial.

(** What it does in general *)
Theorem C76_mapcon_parts : forall St A B (f : list (list A) -> comp St (list B)) l more s s' r,
  calls f (map (fun i => map (skipn i) (l :: more)) (seq 0 (length l))) s s' r ->
  mapcon f l more s = (s', option_map (fun bs => concat (map (@rev B) bs)) r).
Proof. exact @mapcon_ok. Qed.
Print Assumptions C76_mapcon_parts.

(** every stops at the first false value, some at the first true one and returns it. *)
Theorem C76_every_partial : forall St A B (truth : B -> bool) (f : list A -> comp St B) arg more xs s s' r,
  rows (arg :: more) xs -> visits (fun b => negb (truth b)) f xs s s' r ->
  every truth f arg more s = (s', option_map (fun o => match o with Some _ => false | None => true end) r).
Proof. exact @every_ok. Qed.
Print Assumptions C76_every_partial.

Theorem C76_some_partial : forall St A B (truth : B -> bool) (f : list A -> comp St B) arg more xs s s' r,
  rows (arg :: more) xs -> visits truth f xs s s' r -> some truth f arg more s = (s', r).
Proof. exact @some_ok. Qed.
Print Assumptions C76_some_partial.

Theorem C76_visits_total : forall St X B stop (f : X -> comp St B) xs s, exists s' r, visits stop f xs s s' r.
Proof. exact @visits_total. Qed.
Print Assumptions C76_visits_total.

(** reduce is the left fold over the part between start and end; from the end, over the part of the reversed sequence. *)
Theorem C76_reduce_partial : forall St A (f : list A -> comp St A) sq start end_ (fe : bool) initial s s' r,
  start <= end_ -> end_ <= length sq ->
  match initial, window (if fe then rev sq else sq) start end_ with
  | Some v, w => folds f v w s s' r
  | None, [] => f [] s = (s', r)
  | None, x :: w => folds f x w s s' r
  end -> reduce f sq start end_ fe initial s = (s', r).
Proof. exact @reduce_ok. Qed.
Print Assumptions C76_reduce_partial.

Theorem C76_folds_total : forall St A (f : list A -> comp St A) xs a s, exists s' r, folds f a xs s s' r.
Proof. exact @folds_total. Qed.
Print Assumptions C76_folds_total.

Theorem C76_mapcar_refuted : exists (ls : list (list nat)), forall (f : list nat -> comp (list (list nat)) nat),
  ls = [[1]; []] /\ MAPCAR f ls [] = ([], None).
Proof. exact mapcar_short_refuted. Qed.
Print Assumptions C76_mapcar_refuted.

Theorem C76_mapc_refuted : exists (l : list nat), l <> [] /\ MAPC (fun _ => ret 0) [l] tt = (tt, Some []).
Proof. exact mapc_value_refuted. Qed.
Print Assumptions C76_mapc_refuted.

Theorem C76_mapcon_refuted : exists (f : list (list nat) -> comp unit (list nat)) l bs,
  calls f (map (fun i => map (skipn i) [l]) (seq 0 (length l))) tt tt (Some bs) /\
  mapcon f l [] tt = (tt, Some [2; 1]) /\ concat bs = [1; 2].
Proof. exact mapcon_refuted. Qed.
Print Assumptions C76_mapcon_refuted.

Theorem C76_reduce_refuted : exists (f : nat -> nat -> nat) l init,
  reduce (fun xs => match xs with [x; y] => ret (f x y) | _ => fail end) l 0 (length l) true (Some init) tt
    <> (tt, Some (fold_right f init l)).
Proof. exact reduce_from_end_refuted. Qed.
Print Assumptions C76_reduce_refuted.

(** A function that notes its arguments in the state; the third call fails. *)
Definition noting (limit : nat) (args : list nat) : comp (list (list nat)) nat :=
  fun s => if length s <? limit then (s ++ [args], Some (fold_right Nat.add 0 args)) else (s, None).

Example C76_ex : rows [[1; 2; 3]; [10; 20; 30; 40]] [[1; 10]; [2; 20]; [3; 30]] /\
  MAPCAR (noting 5) [[1; 2; 3]; [10; 20; 30; 40]] [] = ([[1; 10]; [2; 20]; [3; 30]], Some [11; 22; 33]) /\
  MAPCAR (noting 2) [[1; 2; 3]; [10; 20; 30; 40]] [] = ([[1; 10]; [2; 20]], None) /\
  every (fun b => b <? 2) (noting 5) [1; 2; 3] [] [] = ([[1]; [2]], Some false) /\
  some (fun b => 12 <? b) (noting 5) [1; 2; 3] [[10; 20; 30]] [] = ([[1; 10]; [2; 20]], Some (Some 22)) /\
  reduce (noting 5) [1; 2; 3; 4] 1 4 false None [] = ([[2; 3]; [5; 4]], Some 9) /\
  maplist (fun ls => ret (map (@length nat) ls)) [1; 2] [[3; 4; 5]] tt = (tt, Some [[2; 3]; [1; 2]]).
Proof.
  split; [|repeat split; reflexivity]. split; [reflexivity|]. intros i args E.
  destruct i as [|[|[|i]]]; cbn in E; [| | |destruct i; discriminate]; inversion E; subst;
    (constructor; [reflexivity|]; constructor; [reflexivity|]; constructor).
Qed.
