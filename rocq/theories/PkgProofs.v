From Coq Require Import Permutation.
From Verif Require Import HashProofs.
From Verif Require Export PkgModel.

Lemma name_eqb_eq a b : name_eqb a b = true <-> a = b.
Proof.
  revert b. induction a as [|x a IH]; intros [|y b]; cbn [name_eqb]; try (split; congruence).
  rewrite andb_true_iff, N.eqb_eq, IH. split; [intros [-> ->]; reflexivity|intros [= -> ->]; auto].
Qed.

(** * vectors *)
Lemma put_length {A} (l : list A) i x : length (put i x l) = length l.
Proof. revert i. induction l as [|a l IH]; intros [|i]; cbn [put length]; auto. Qed.
Lemma nth_put {A} (l : list A) i j x d : i < length l -> nth j (put i x l) d = if j =? i then x else nth j l d.
Proof.
  revert i j. induction l as [|a l IH]; intros i j H; [cbn in H; lia|].
  destruct i as [|i], j as [|j]; cbn [put nth Nat.eqb]; try reflexivity. cbn [length] in H. apply IH. lia.
Qed.
Lemma put_split {A} (l : list A) i x d : i < length l ->
  exists l1 l2, l = l1 ++ nth i l d :: l2 /\ put i x l = l1 ++ x :: l2.
Proof.
  revert i. induction l as [|a l IH]; intros i H; [cbn in H; lia|]. destruct i as [|i].
  - exists [], l. auto.
  - cbn [length] in H. destruct (IH i ltac:(lia)) as (l1 & l2 & E1 & E2).
    exists (a :: l1), l2. cbn [nth put app]. rewrite <- E1, E2. auto.
Qed.

(** * tables *)
Definition path (n : name) (t : table) (j : nat) := pos (length t) (start n (length t)) j.
Definition at_ (t : table) i := nth i t Zero.
Definition nz (t : table) := length (filter (fun s => negb (is_zero s)) t).
Definition syms (t : table) : list symbol := flat_map (fun s => match s with Sym x => [x] | _ => [] end) t.

Lemma start_lt n k : 0 < k -> start n k < k.
Proof.
  intros H. unfold start. pose proof (N.mod_upper_bound (rehash n) (N.of_nat k) ltac:(lia)). lia.
Qed.

Lemma nz_app a b : nz (a ++ b) = nz a + nz b.
Proof. unfold nz. rewrite filter_app, app_length. reflexivity. Qed.
Lemma syms_app a b : syms (a ++ b) = syms a ++ syms b.
Proof. apply flat_map_app. Qed.

Lemma nz_put t i x : i < length t ->
  nz (put i x t) + (if is_zero (at_ t i) then 0 else 1) = nz t + (if is_zero x then 0 else 1).
Proof.
  unfold at_, nz. revert i. induction t as [|y t IH]; intros i H; [cbn in H; lia|].
  destruct i as [|i]; cbn [put nth filter].
  - destruct (is_zero x), (is_zero y); cbn [negb length]; lia.
  - cbn [length] in H. specialize (IH i ltac:(lia)). destruct (is_zero y); cbn [negb length]; lia.
Qed.

Definition slot_syms (s : slot) := match s with Sym x => [x] | _ => [] end.
Lemma syms_put t i x : i < length t -> exists rest,
  Permutation (syms t) (slot_syms (at_ t i) ++ rest) /\ Permutation (syms (put i x t)) (slot_syms x ++ rest).
Proof.
  intros H. unfold at_. destruct (put_split t i x Zero H) as (l1 & l2 & E1 & E2).
  exists (syms l1 ++ syms l2). rewrite E2. split.
  - rewrite E1 at 1. rewrite syms_app. cbn [syms flat_map]. apply Permutation_app_swap_app.
  - rewrite syms_app. cbn [syms flat_map]. apply Permutation_app_swap_app.
Qed.

Lemma in_syms t s : In s (syms t) <-> exists i, i < length t /\ at_ t i = Sym s.
Proof.
  unfold syms. rewrite in_flat_map. split.
  - intros (x & Hx & Hs). destruct x as [| |y]; [destruct Hs|destruct Hs|]. destruct Hs as [->|[]].
    destruct (In_nth _ _ Zero Hx) as (i & Hi & E). exists i. auto.
  - intros (i & Hi & E). exists (Sym s). split; [rewrite <- E; apply nth_In; exact Hi|left; reflexivity].
Qed.

Lemma zero_exists t : nz t < length t -> exists i, i < length t /\ at_ t i = Zero.
Proof.
  unfold nz, at_. induction t as [|x t IH]; intros H; [cbn in H; lia|].
  destruct x; [exists 0; split; [cbn; lia|reflexivity]| |];
    (destruct IH as (i & Hi & E); [cbn in H; lia|]; exists (S i); split; [cbn; lia|exact E]).
Qed.

Lemma syms_le_nz t : length (syms t) <= nz t.
Proof. unfold nz, syms. induction t as [|[| |x] t IH]; cbn in *; lia. Qed.
Lemma syms_count t : length (filter is_symbol t) = length (syms t).
Proof. unfold syms. induction t as [|[| |x] t IH]; cbn in *; lia. Qed.

Lemma path_next t n j : S j < length t -> (if length t <=? S (path n t j) then 0 else S (path n t j)) = path n t (S j).
Proof. intros H. apply pos_next; [apply start_lt; lia|exact H]. Qed.

(** scanning along the path *)
Definition scanned (t : table) (n : name) (j : nat) := forall j', j' < j ->
  at_ t (path n t j') <> Zero /\ forall s, at_ t (path n t j') = Sym s -> sname s <> n.

Definition found_ok (t : table) (n : name) (r : found) : Prop :=
  exists j, j < length t /\ scanned t n j /\
  match r with
  | Hit i s => i = path n t j /\ at_ t i = Sym s /\ sname s = n
  | Miss i => at_ t (path n t j) = Zero /\ exists je, je <= j /\ i = path n t je /\ is_symbol (at_ t i) = false
  end.

Lemma find_loop_spec t n : 0 < length t -> forall fuel j e, j + fuel = length t -> scanned t n j ->
  match e with None => True | Some i => exists je, je < j /\ i = path n t je /\ is_symbol (at_ t i) = false end ->
  (exists j0, j <= j0 < length t /\ at_ t (path n t j0) = Zero) ->
  exists r, find_loop fuel t n (path n t j) e = Ret r /\ found_ok t n r.
Proof.
  intros Hl. pose proof (start_lt n (length t) Hl) as Hs.
  induction fuel as [|f IH]; intros j e Hj Sc He (j0 & Hj0 & E0); [lia|].
  cbn [find_loop]. cbv zeta. fold (at_ t (path n t j)).
  assert (Hn : forall e', at_ t (path n t j) <> Zero ->
     (forall s, at_ t (path n t j) = Sym s -> sname s <> n) ->
     match e' with None => True | Some i => exists je, je < S j /\ i = path n t je /\ is_symbol (at_ t i) = false end ->
     exists r, find_loop f t n (if length t <=? S (path n t j) then 0 else S (path n t j)) e' = Ret r /\ found_ok t n r).
  { intros e' Nz Ns He'. assert (j <> j0) by (intros ->; congruence). rewrite path_next by lia.
    apply (IH (S j)); [lia| |exact He'|].
    - intros j' Hj'. destruct (Nat.eq_dec j' j) as [->|]; [auto|apply Sc; lia].
    - exists j0. split; [lia|exact E0]. }
  destruct (at_ t (path n t j)) as [| |s] eqn:E.
  - eexists. split; [reflexivity|]. exists j. split; [lia|]. split; [exact Sc|]. split; [exact E|].
    destruct e as [i|].
    + destruct He as (je & ? & ? & ?). exists je. split; [lia|auto].
    + exists j. split; [lia|]. split; [reflexivity|]. rewrite E. reflexivity.
  - apply Hn; [congruence|congruence|]. destruct e as [i|].
    + destruct He as (je & ? & ? & ?). exists je. split; [lia|auto].
    + exists j. split; [lia|]. split; [reflexivity|]. rewrite E. reflexivity.
  - destruct (name_eqb (sname s) n) eqn:En.
    + eexists. split; [reflexivity|]. exists j. split; [lia|]. split; [exact Sc|]. split; [reflexivity|].
      split; [exact E|]. apply name_eqb_eq, En.
    + apply Hn; [congruence| |].
      * intros s' [= <-] En'. apply name_eqb_eq in En'. congruence.
      * destruct e as [i|]; [|exact I]. destruct He as (je & ? & ? & ?). exists je. split; [lia|auto].
Qed.

Lemma path_0 t n : 0 < length t -> path n t 0 = start n (length t).
Proof.
  intros H. pose proof (start_lt n _ H). unfold path, pos.
  destruct (Nat.ltb_spec (start n (length t) + 0) (length t)); lia.
Qed.
Lemma path_lt t n j : j < length t -> path n t j < length t.
Proof. intros H. apply pos_lt; [apply start_lt; lia|exact H]. Qed.
Lemma path_inj t n i j : i < length t -> j < length t -> path n t i = path n t j -> i = j.
Proof. intros Hi Hj. apply pos_inj; [apply start_lt; lia|exact Hi|exact Hj]. Qed.
Lemma path_surj t n i : i < length t -> exists j, j < length t /\ path n t j = i.
Proof. intros H. apply pos_surj; [apply start_lt; lia|exact H]. Qed.

Lemma find_spec t n : nz t < length t -> exists r, findsymbol t n = Ret r /\ found_ok t n r.
Proof.
  intros H. destruct (zero_exists t H) as (i & Hi & Ei). destruct (path_surj t n i Hi) as (j0 & Hj0 & Ep).
  unfold findsymbol. rewrite <- (path_0 t n) by lia.
  apply find_loop_spec; [lia|lia|intros ? ?; lia|exact I|]. exists j0. rewrite Ep. split; [lia|exact Ei].
Qed.


Lemma skip_spec p t n : p Zero = false -> nz t < length t -> exists j, 
  skip p (length t) t (start n (length t)) = Ret (path n t j) /\ j < length t /\ p (at_ t (path n t j)) = false /\
  (forall j', j' < j -> p (at_ t (path n t j')) = true).
Proof.
  intros Pz H. destruct (zero_exists t H) as (i & Hi & Ei). destruct (path_surj t n i Hi) as (j0 & Hj0 & Ep).
  rewrite <- (path_0 t n) by lia.
  assert (G : forall fuel j, j + fuel = length t -> (forall j', j' < j -> p (at_ t (path n t j')) = true) ->
     j <= j0 -> exists k, skip p fuel t (path n t j) = Ret (path n t k) /\ k < length t /\
       p (at_ t (path n t k)) = false /\ (forall j', j' < k -> p (at_ t (path n t j')) = true)).
  { induction fuel as [|f IH]; intros j Hj Sc L; [lia|].
    cbn [skip]. fold (at_ t (path n t j)). destruct (p (at_ t (path n t j))) eqn:E.
    - assert (j <> j0) by (intros ->; rewrite Ep, Ei in E; congruence).
      pose proof (start_lt n (length t) ltac:(lia)). rewrite path_next by lia.
      apply (IH (S j)); [lia| |lia]. intros j' Hj'. destruct (Nat.eq_dec j' j) as [->|]; [exact E|apply Sc; lia].
    - exists j. split; [reflexivity|]. split; [lia|]. split; [exact E|exact Sc]. }
  apply (G (length t) 0); [lia|intros; lia|lia].
Qed.

(** * Room: enough of it for every search to end *)
Definition room (t : table) (c : nat) := nz t <= c /\ c <= length t / 2 /\ 3 <= length t.
Lemma room_lt t c : room t c -> S (nz t) < length t.
Proof. intros (A & B & C). pose proof (Nat.div_lt (length t) 2 ltac:(lia) ltac:(lia)).
  pose proof (Nat.mul_div_le (length t) 2 ltac:(lia)). lia. Qed.

(** the buddy table *)
Lemma buddy2_S i : buddy2 i = (buddysize i, buddysize (S i)).
Proof. unfold buddysize. cbn [buddy2 fst snd]. destruct (buddy2 i); reflexivity. Qed.
Lemma buddysize_rec i : buddysize (S (S i)) = buddysize i + buddysize (S i).
Proof. unfold buddysize at 1. cbn [buddy2]. rewrite buddy2_S. reflexivity. Qed.
Lemma buddysize_ge i : 3 <= buddysize i /\ i <= buddysize i.
Proof.
  assert (G : 3 <= buddysize i /\ 3 <= buddysize (S i) /\ i <= buddysize i /\ S i <= buddysize (S i)).
  { induction i as [|i (A & B & C & D)]; [cbn; lia|]. rewrite buddysize_rec. lia. }
  tauto.
Qed.
Lemma cell_index_spec w : forall fuel req, w <= req + fuel -> w <= buddysize (cell_index fuel req w) /\ req <= cell_index fuel req w.
Proof.
  induction fuel as [|f IH]; intros req H; cbn [cell_index].
  - pose proof (buddysize_ge req). lia.
  - destruct (Nat.ltb_spec (buddysize req) w).
    + destruct (IH (S req)); [lia|]. lia.
    + lia.
Qed.
Lemma newsize_ge n : n + 3 <= newsize n.
Proof.
  unfold newsize. destruct (cell_index_spec (n + 2) (n + 2) 1) as [A B]; [lia|].
  destruct (cell_index (n + 2) 1 (n + 2)) as [|i]; [lia|]. rewrite buddysize_rec. pose proof (buddysize_ge i). lia.
Qed.

Lemma reinsert_room t : forall acc, nz acc + length (syms t) < length acc ->
  exists t', fold_left reinsert t (Ret acc) = Ret t' /\ length t' = length acc /\ nz t' = nz acc + length (syms t).
Proof.
  induction t as [|s t IH]; intros acc H.
  - exists acc. cbn. auto.
  - cbn [fold_left]. destruct s as [| |s]; cbn [syms flat_map app] in *; fold (syms t) in *.
    + apply IH. exact H.
    + apply IH. exact H.
    + cbn [reinsert bind]. cbn [length] in H.
      destruct (skip_spec (fun s => negb (is_zero s)) acc (sname s) eq_refl ltac:(lia)) as (j & Es & Hj & Ez & _).
      rewrite Es. cbn [bind]. pose proof (nz_put acc (path (sname s) acc j) (Sym s) (path_lt _ _ _ Hj)) as Np.
      apply negb_false_iff in Ez. rewrite Ez in Np. cbn [is_zero] in Np.
      destruct (IH (put (path (sname s) acc j) (Sym s) acc)) as (t' & E & L & N).
      * rewrite put_length. lia.
      * exists t'. split; [exact E|]. rewrite put_length in L. split; [exact L|]. cbn [length]. lia.
Qed.

Lemma nz_repeat n : nz (repeat Zero n) = 0.
Proof. unfold nz. induction n; [reflexivity|exact IHn]. Qed.
Lemma syms_repeat n : syms (repeat Zero n) = [].
Proof. unfold syms. induction n; [reflexivity|exact IHn]. Qed.

Lemma extend_room t : 3 <= length t -> nz t <= S (length t / 2) ->
  exists t', extendsymvec t = Ret (t', length (syms t)) /\ room t' (length (syms t)).
Proof.
  intros L H. unfold extendsymvec. pose proof (newsize_ge (length t)) as G. pose proof (syms_le_nz t) as Q.
  pose proof (Nat.mul_div_le (length t) 2 ltac:(lia)) as D.
  destruct (reinsert_room t (repeat Zero (newsize (length t)))) as (t' & E & L' & N').
  { rewrite nz_repeat, repeat_length. lia. }
  rewrite E. cbn [bind]. rewrite syms_count. exists t'. split; [reflexivity|].
  rewrite nz_repeat in N'. rewrite repeat_length in L'. unfold room. rewrite L'. split; [lia|]. split; [|lia].
  apply Nat.div_le_lower_bound; lia.
Qed.

Lemma store_room t c h s : room t c -> h < length t -> is_symbol (at_ t h) = false ->
  exists r, store t c h s = Ret r /\ room (fst r) (snd r).
Proof.
  intros (A & B & C) Hh Hs. unfold store. fold (at_ t h).
  pose proof (nz_put t h (Sym s) Hh) as Np. cbn [is_zero] in Np.
  destruct (Nat.ltb_spec (length t / 2) (if is_zero (at_ t h) then S c else c)) as [Lt|Ge].
  - destruct (extend_room (put h (Sym s) t)) as (t' & E & R).
    + rewrite put_length. exact C.
    + rewrite put_length. destruct (is_zero (at_ t h)); lia.
    + exists (t', length (syms (put h (Sym s) t))). auto.
  - eexists. split; [reflexivity|]. cbn [fst snd]. unfold room. rewrite put_length.
    destruct (is_zero (at_ t h)); lia.
Qed.

(** * States *)
Definition valid (st : state) (p : nat) := p < length (pkgs st).
Definition roomy (k : pkg) := room (int k) (intcount k) /\ room (ext k) (extcount k).
Definition okp (n : nat) (k : pkg) := roomy k /\ Forall (fun q => q < n) (use k) /\ Forall (fun q => q < n) (used_by k).
Definition ok (st : state) := Forall (okp (length (pkgs st))) (pkgs st).

Lemma ok_at st p : ok st -> valid st p -> okp (length (pkgs st)) (pkg_at st p).
Proof. intros H V. unfold ok in H. rewrite Forall_forall in H. apply H, nth_In, V. Qed.

Lemma Forall_put {A} (P : A -> Prop) l i x : Forall P l -> P x -> Forall P (put i x l).
Proof.
  intros H Hx. revert i. induction H as [|y l Hy H IH]; intros [|i]; cbn [put]; constructor; auto.
Qed.

Lemma set_ok st p k f : ok st -> okp (length (pkgs st)) k -> ok (set_pkg (mkState (pkgs st) f) p k).
Proof. intros H K. unfold ok, set_pkg. cbn [pkgs]. rewrite put_length. apply Forall_put; assumption. Qed.
Lemma set_ok' st p k : ok st -> okp (length (pkgs st)) k -> ok (set_pkg st p k).
Proof. intros H K. unfold ok, set_pkg. cbn [pkgs]. rewrite put_length. apply Forall_put; assumption. Qed.

Lemma conflict_total st s us : ok st -> Forall (valid st) us -> conflict_check st s us <> Hang.
Proof.
  intros H. induction 1 as [|u us V F IH]; cbn [conflict_check]; [discriminate|].
  destruct (ok_at st u H V) as ((R & _) & _). pose proof (room_lt _ _ R).
  destruct (find_spec (int (pkg_at st u)) (sname s) ltac:(lia)) as (r & -> & _). cbn [bind].
  destruct r as [i s'|i]; [destruct (same_symbol s' s); [exact IH|discriminate]|exact IH].
Qed.

Lemma export_loop_spec t s : nz t < length t -> exists o,
  export_loop (length t) t s (start (sname s) (length t)) = Ret o /\
  match o with
  | None => exists j s', j < length t /\ at_ t (path (sname s) t j) = Sym s' /\ sid s' = sid s
  | Some h => exists j, j < length t /\ h = path (sname s) t j /\ is_symbol (at_ t h) = false /\
      forall j', j' < j -> exists s', at_ t (path (sname s) t j') = Sym s' /\ sid s' <> sid s
  end.
Proof.
  intros H. destruct (zero_exists t H) as (i & Hi & Ei). destruct (path_surj t (sname s) i Hi) as (j0 & Hj0 & Ep).
  rewrite <- (path_0 t (sname s)) by lia.
  assert (G : forall fuel j, j + fuel = length t -> j <= j0 ->
     (forall j', j' < j -> exists s', at_ t (path (sname s) t j') = Sym s' /\ sid s' <> sid s) ->
     exists o, export_loop fuel t s (path (sname s) t j) = Ret o /\
     match o with
     | None => exists j s', j < length t /\ at_ t (path (sname s) t j) = Sym s' /\ sid s' = sid s
     | Some h => exists j, j < length t /\ h = path (sname s) t j /\ is_symbol (at_ t h) = false /\
         forall j', j' < j -> exists s', at_ t (path (sname s) t j') = Sym s' /\ sid s' <> sid s
     end).
  { induction fuel as [|f IH]; intros j Hj L Sc; [lia|]. cbn [export_loop]. fold (at_ t (path (sname s) t j)).
    destruct (at_ t (path (sname s) t j)) as [| |s'] eqn:E.
    - exists (Some (path (sname s) t j)). split; [reflexivity|]. exists j. rewrite E. auto with arith.
      split; [lia|]. auto.
    - exists (Some (path (sname s) t j)). split; [reflexivity|]. exists j. rewrite E. split; [lia|]. auto.
    - unfold same_symbol. destruct (Nat.eqb_spec (sid s') (sid s)) as [e|ne].
      + exists None. split; [reflexivity|]. exists j, s'. split; [lia|auto].
      + assert (j <> j0) by (intros ->; rewrite Ep, Ei in E; congruence).
        pose proof (start_lt (sname s) (length t) ltac:(lia)). rewrite path_next by lia.
        apply (IH (S j)); [lia|lia|]. intros j' Hj'. destruct (Nat.eq_dec j' j) as [->|]; [eauto|apply Sc; lia]. }
  apply (G (length t) 0); [lia|lia|intros; lia].
Qed.

Lemma export_total st s p : ok st -> valid st p ->
  export st s p = Error \/ exists st', export st s p = Ret st' /\ ok st' /\ length (pkgs st') = length (pkgs st).
Proof.
  intros H V. destruct (ok_at st p H V) as ((Ri & Re) & U & B). unfold export.
  pose proof (conflict_total st s (used_by (pkg_at st p)) H B) as Ct.
  destruct (conflict_check st s (used_by (pkg_at st p))) as [[]| |]; [|left; reflexivity|congruence]. cbn [bind].
  pose proof (room_lt _ _ Re). destruct (export_loop_spec (ext (pkg_at st p)) s ltac:(lia)) as (o & -> & Ho). cbn [bind].
  right. destruct o as [h|]; [|exists st; auto]. destruct Ho as (j & Hj & -> & Hs & _).
  destruct (store_room (ext (pkg_at st p)) (extcount (pkg_at st p)) _ s Re (path_lt _ (sname s) _ Hj) Hs) as (r & -> & Rr).
  cbn [bind]. eexists. split; [reflexivity|]. split; [|apply put_length]. apply set_ok'; [exact H|].
  split; [split; assumption|]. split; assumption.
Qed.

Lemma inherited_total st n us : ok st -> Forall (valid st) us -> exists o, find_inherited st n us = Ret o.
Proof.
  intros H. induction 1 as [|u us V F IH]; cbn [find_inherited]; [eauto|].
  destruct (ok_at st u H V) as ((_ & R) & _). pose proof (room_lt _ _ R).
  destruct (find_spec (ext (pkg_at st u)) n ltac:(lia)) as (r & -> & _). cbn [bind].
  destruct r; [eauto|exact IH].
Qed.

Lemma intern_total ea st n p : ok st -> valid st p ->
  intern ea st n p = Error \/ exists st' s, intern ea st n p = Ret (st', s) /\ ok st' /\ length (pkgs st') = length (pkgs st).
Proof.
  intros H V. destruct (ok_at st p H V) as ((Ri & Re) & U & B). unfold intern. pose proof (room_lt _ _ Ri).
  destruct (find_spec (int (pkg_at st p)) n ltac:(lia)) as (r & -> & Fr). cbn [bind].
  destruct r as [i s|h]; [right; exists st, s; auto|].
  destruct (inherited_total st n (use (pkg_at st p)) H U) as (o & ->). cbn [bind].
  destruct o as [s|]; [right; exists st, s; auto|].
  destruct Fr as (j & Hj & _ & _ & je & Hje & -> & Hs).
  assert (Eh : skip is_symbol (length (int (pkg_at st p))) (int (pkg_at st p)) (path n (int (pkg_at st p)) je) =
               Ret (path n (int (pkg_at st p)) je)).
  { destruct (length (int (pkg_at st p))) eqn:E; [lia|]. cbn [skip]. fold (at_ (int (pkg_at st p)) (path n (int (pkg_at st p)) je)).
    rewrite Hs. reflexivity. }
  rewrite Eh. cbn [bind].
  destruct (store_room (int (pkg_at st p)) (intcount (pkg_at st p)) (path n (int (pkg_at st p)) je)
              {| sid := fresh st; sname := n |} Ri (path_lt (int (pkg_at st p)) n je (Nat.le_lt_trans _ _ _ Hje Hj)) Hs) as (r & -> & Rr). cbn [bind].
  set (st1 := set_pkg _ p _). assert (O1 : ok st1).
  { apply set_ok; [exact H|]. split; [split; assumption|]. split; assumption. }
  assert (L1 : length (pkgs st1) = length (pkgs st)) by apply put_length.
  destruct ((p =? keywordpkg) || ea).
  - destruct (export_total st1 {| sid := fresh st; sname := n |} p O1) as [->|(st2 & -> & O2 & L2)].
    + unfold valid. rewrite L1. exact V.
    + left. reflexivity.
    + right. cbn [bind]. eexists _, _. split; [reflexivity|]. split; [exact O2|]. rewrite L2. exact L1.
  - right. cbn [bind]. eexists _, _. split; [reflexivity|]. auto.
Qed.

Lemma room_put t c i x : room t c -> i < length t -> is_symbol (at_ t i) = true -> is_symbol x = false -> room (put i x t) c.
Proof.
  intros (A & B & C) Hi Hs Hx. unfold room. rewrite put_length. pose proof (nz_put t i x Hi) as N.
  destruct (at_ t i); try discriminate. cbn [is_zero] in N. destruct (is_zero x); lia.
Qed.

Lemma lisp_find_total t c n : room t c -> exists o, lisp_find t n = Ret o /\ lisp_find_external t n = Ret o /\
  match o with Some i => i < length t /\ is_symbol (at_ t i) = true | None => True end.
Proof.
  intros R. pose proof (room_lt _ _ R). unfold lisp_find, lisp_find_external.
  destruct (find_spec t n ltac:(lia)) as (r & -> & Fr). cbn [bind]. destruct r as [i s|i].
  - exists (Some i). split; [reflexivity|]. split; [reflexivity|]. destruct Fr as (j & Hj & _ & -> & E & _).
    split; [apply path_lt, Hj|]. rewrite E. reflexivity.
  - exists None. auto.
Qed.

Lemma unintern_total st s p : ok st -> valid st p ->
  exists st', unintern st s p = Ret st' /\ ok st' /\ length (pkgs st') = length (pkgs st).
Proof.
  intros H V. destruct (ok_at st p H V) as ((Ri & Re) & U & B). unfold unintern.
  destruct (lisp_find_total _ _ (sname s) Ri) as (a & -> & _ & Ha).
  destruct (lisp_find_total _ _ (sname s) Re) as (b & _ & -> & Hb). cbn [bind].
  eexists. split; [reflexivity|]. split; [|apply put_length]. apply set_ok'; [exact H|].
  split; [|split; assumption]. split; cbn [int intcount ext extcount].
  - destruct a as [i|]; [|exact Ri]. destruct Ha. apply room_put; auto.
  - destruct b as [i|]; [|exact Re]. destruct Hb. apply room_put; auto.
Qed.

Lemma unexport_total st s p : ok st -> valid st p ->
  exists st', unexport st s p = Ret st' /\ ok st' /\ length (pkgs st') = length (pkgs st).
Proof.
  intros H V. destruct (ok_at st p H V) as ((Ri & Re) & U & B). unfold unexport.
  destruct (lisp_find_total _ _ (sname s) Re) as (b & _ & -> & Hb). cbn [bind].
  eexists. split; [reflexivity|]. split; [|apply put_length]. apply set_ok'; [exact H|].
  split; [|split; assumption]. split; cbn [int intcount ext extcount]; [exact Ri|].
  destruct b as [i|]; [|exact Re]. destruct Hb. apply room_put; auto.
Qed.

(** histories without import *)
Definition importless (n : nat) (o : op) : Prop :=
  match o with
  | Intern _ p | Export _ p | Unintern _ p | Unexport _ p => p < n
  | Import _ _ => False
  end.

Theorem run_terminates ea os : forall st, ok st -> Forall (importless (length (pkgs st))) os -> run ea st os <> Hang.
Proof.
  induction os as [|o os IH]; intros st H F; [discriminate|]. inversion F as [|? ? Fo F']; subst. cbn [run].
  destruct o as [n p|s p|s p|s p|s p]; cbn [step importless] in *; [| | | |destruct Fo].
  - destruct (intern_total ea st n p H Fo) as [->|(st' & s & -> & O & L)]; cbn [bind fst snd]; [discriminate|].
    rewrite <- L in F'. pose proof (IH st' O F') as G. destruct (run ea st' os); cbn [bind]; congruence.
  - destruct (export_total st s p H Fo) as [->|(st' & -> & O & L)]; cbn [bind fst snd].
    + pose proof (IH st H F') as G. destruct (run ea st os); cbn [bind]; congruence.
    + rewrite <- L in F'. pose proof (IH st' O F') as G. destruct (run ea st' os); cbn [bind]; congruence.
  - destruct (unintern_total st s p H Fo) as (st' & -> & O & L); cbn [bind fst snd].
    rewrite <- L in F'. pose proof (IH st' O F') as G. destruct (run ea st' os); cbn [bind]; congruence.
  - destruct (unexport_total st s p H Fo) as (st' & -> & O & L); cbn [bind fst snd].
    rewrite <- L in F'. pose proof (IH st' O F') as G. destruct (run ea st' os); cbn [bind]; congruence.
Qed.

(** packages as they are created *)
Definition initial (graph : list (list nat * list nat)) : state :=
  mkState (map (fun g => makepkg (fst g) (snd g)) graph) 0.
Definition graph_ok (graph : list (list nat * list nat)) :=
  Forall (fun g => Forall (fun q => q < length graph) (fst g) /\ Forall (fun q => q < length graph) (snd g)) graph.

Lemma room_fresh : room (repeat Zero SYMBOLHASH) 0.
Proof. unfold room. rewrite nz_repeat, repeat_length. unfold SYMBOLHASH. cbn. lia. Qed.
Lemma initial_ok g : graph_ok g -> ok (initial g).
Proof.
  intros H. unfold ok, initial. cbn [pkgs]. rewrite map_length. apply Forall_map.
  eapply Forall_impl; [|exact H]. intros [u b] [A B]. split; [|split; assumption].
  split; apply room_fresh.
Qed.

Theorem initial_terminates ea g os : graph_ok g -> Forall (importless (length g)) os -> run ea (initial g) os <> Hang.
Proof.
  intros H F. apply run_terminates; [apply initial_ok, H|]. unfold initial. cbn [pkgs]. rewrite map_length. exact F.
Qed.
