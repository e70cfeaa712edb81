(** Proofs about the mapping functions. *)
From Verif Require Import MapModel.

(** * Specification vocabulary *)

Section Spec.
Context {St A X B : Type}.

(** [calls f xs s s' r]: [f] is called with the members of [xs], from left to right, until a call fails; [r] has the values. *)
Inductive calls (f : X -> comp St B) : list X -> St -> St -> option (list B) -> Prop :=
| calls_nil s : calls f [] s s (Some [])
| calls_ok x xs s s1 s2 b r : f x s = (s1, Some b) -> calls f xs s1 s2 r -> calls f (x :: xs) s s2 (option_map (cons b) r)
| calls_fail x xs s s1 : f x s = (s1, None) -> calls f (x :: xs) s s1 None.

(** The same, but no call follows the first value with the property [stop], which is the result *)
Inductive visits (stop : B -> bool) (f : X -> comp St B) : list X -> St -> St -> option (option B) -> Prop :=
| visits_nil s : visits stop f [] s s (Some None)
| visits_stop x xs s s1 b : f x s = (s1, Some b) -> stop b = true -> visits stop f (x :: xs) s s1 (Some (Some b))
| visits_go x xs s s1 s2 b r : f x s = (s1, Some b) -> stop b = false -> visits stop f xs s1 s2 r -> visits stop f (x :: xs) s s2 r
| visits_fail x xs s s1 : f x s = (s1, None) -> visits stop f (x :: xs) s s1 None.

(** The i-th member of [xs] has the i-th members of the lists, for the length of the first list. *)
Definition rows (ls : list (list A)) (xs : list (list A)) : Prop :=
  length xs = length (hd [] ls) /\
  forall i args, nth_error xs i = Some args -> Forall2 (fun l a => nth_error l i = Some a) ls args.

Definition long_enough (ls : list (list A)) : Prop := Forall (fun l => length (hd [] ls) <= length l) ls.
End Spec.

(** Left fold with effects *)
Inductive folds {St A} (f : list A -> comp St A) : A -> list A -> St -> St -> option A -> Prop :=
| folds_nil a s : folds f a [] s s (Some a)
| folds_ok a x xs s s1 s2 b r : f [a; x] s = (s1, Some b) -> folds f b xs s1 s2 r -> folds f a (x :: xs) s s2 r
| folds_fail a x xs s s1 : f [a; x] s = (s1, None) -> folds f a (x :: xs) s s1 None.

Lemma calls_total {St X B} (f : X -> comp St B) xs : forall s, exists s' r, calls f xs s s' r.
Proof.
  induction xs as [|x xs IH]; intros s; [exists s, (Some []); constructor|].
  destruct (f x s) as [s1 [b|]] eqn:E.
  - destruct (IH s1) as (s' & r & H). exists s', (option_map (cons b) r). eapply calls_ok; eassumption.
  - exists s1, None. apply calls_fail. exact E.
Qed.

Lemma visits_total {St X B} stop (f : X -> comp St B) xs : forall s, exists s' r, visits stop f xs s s' r.
Proof.
  induction xs as [|x xs IH]; intros s; [exists s, (Some None); constructor|].
  destruct (f x s) as [s1 [b|]] eqn:E; [|exists s1, None; apply visits_fail; exact E].
  destruct (stop b) eqn:P; [exists s1, (Some (Some b)); apply visits_stop; assumption|].
  destruct (IH s1) as (s' & r & H). exists s', r. eapply visits_go; eassumption.
Qed.

Lemma folds_total {St A} (f : list A -> comp St A) xs : forall a s, exists s' r, folds f a xs s s' r.
Proof.
  induction xs as [|x xs IH]; intros a s; [exists s, (Some a); constructor|].
  destruct (f [a; x] s) as [s1 [b|]] eqn:E.
  - destruct (IH b s1) as (s' & r & H). exists s', r. eapply folds_ok; eassumption.
  - exists s1, None. apply folds_fail. exact E.
Qed.

Section Proofs.
Context {St A B : Type}.

Lemma elts_some (ls : list (list A)) i : Forall (fun l => i < length l) ls ->
  exists args, elts ls i = Some args /\ Forall2 (fun l a => nth_error l i = Some a) ls args.
Proof.
  intros F. induction F as [|l ls H F (args & E & R)]; [exists []; split; [reflexivity|constructor]|].
  cbn [elts]. destruct (nth_error l i) as [a|] eqn:N; [|apply nth_error_None in N; lia]. rewrite E.
  exists (a :: args). split; [reflexivity|]. constructor; assumption.
Qed.

Lemma row_fun (ls : list (list A)) i a : forall b, Forall2 (fun l a => nth_error l i = Some a) ls a ->
  Forall2 (fun l a => nth_error l i = Some a) ls b -> a = b.
Proof.
  revert a. induction ls as [|l ls IH]; intros a b H K; inversion H; inversion K; subst; [reflexivity|].
  f_equal; [congruence|]. apply IH; assumption.
Qed.

(** ** rows exist *)
Lemma rows_exist (ls : list (list A)) : long_enough ls -> exists xs, rows ls xs.
Proof.
  unfold long_enough, rows. intros F. set (n := length (hd [] ls)) in *. clearbody n.
  induction n as [|n IH].
  - exists []. split; [reflexivity|]. intros i args E. destruct i; discriminate.
  - destruct IH as (xs & L & R).
    { eapply Forall_impl; [|exact F]. intros l H. cbn beta in H. lia. }
    destruct (elts_some ls n) as (args & _ & Ra).
    { eapply Forall_impl; [|exact F]. intros l H. cbn beta in H. lia. }
    exists (xs ++ [args]). split; [rewrite app_length; cbn [length]; lia|]. intros i a E.
    destruct (Nat.lt_ge_cases i (length xs)) as [H|H].
    + rewrite nth_error_app1 in E by exact H. apply R. exact E.
    + rewrite nth_error_app2 in E by exact H. destruct (i - length xs) as [|k] eqn:K; [|destruct k; discriminate].
      inversion E; subst. replace i with (length xs) by lia. exact Ra.
Qed.

(** ** mapcar *)
Lemma take_cars_row (ls : list (list A)) args : Forall2 (fun l a => nth_error l 0 = Some a) ls args ->
  take_cars ls = Some (args, map (@tl A) ls).
Proof.
  intros F. induction F as [|l a ls args H F IH]; [reflexivity|]. destruct l as [|x l]; [discriminate|]. inversion H; subst.
  cbn [take_cars map tl]. rewrite IH. reflexivity.
Qed.

Lemma mapcar_loop_ok (f : list A -> comp St B) : forall xs l others s s' r, rows (l :: others) xs -> calls f xs s s' r ->
  mapcar_loop f l others s = (s', r).
Proof.
  induction xs as [|x xs IH]; intros l others s s' r [L R] C; cbn [length hd] in L.
  - destruct l; [|discriminate]. inversion C; subst. reflexivity.
  - destruct l as [|a l]; [discriminate|]. pose proof (R 0 x eq_refl) as R0. inversion R0 as [|l' a' ls' args' Ha Ho]; subst.
    inversion Ha; subst a'. cbn [mapcar_loop]. rewrite (take_cars_row _ _ Ho).
    assert (RR : rows (l :: map (@tl A) others) xs).
    { split; [cbn [hd]; cbn [length] in L; lia|]. intros i args E. specialize (R (S i) args E).
      inversion R as [|l' a' ls'' args'' Ra Rs]; subst. constructor; [exact Ra|].
      clear - Rs. induction Rs as [|l a ls args H Rs IH]; [constructor|]. constructor; [|exact IH]. destruct l; [discriminate|exact H]. }
    inversion C as [|x' xs' s0 s1 s2 b r' Ef Cr|x' xs' s0 s1 Ef]; subst; unfold bind; rewrite Ef; [|reflexivity].
    rewrite (IH _ _ _ _ _ RR Cr). destruct r'; reflexivity.
Qed.

Theorem mapcar_ok (f : list A -> comp St B) ls xs s s' r : ls <> [] -> rows ls xs -> calls f xs s s' r ->
  MAPCAR f ls s = (s', r).
Proof. intros N R C. destruct ls as [|l ls]; [contradiction|]. apply mapcar_loop_ok with (xs := xs); assumption. Qed.

Theorem mapc_ok (f : list A -> comp St B) ls xs s s' r : ls <> [] -> rows ls xs -> calls f xs s s' r ->
  MAPC f ls s = (s', option_map (fun _ => []) r).
Proof.
  intros N R C. pose proof (mapcar_ok f ls xs s s' r N R C) as M. destruct ls as [|l ls]; [contradiction|].
  cbn [MAPC MAPCAR] in *. unfold bind. rewrite M. destruct r; reflexivity.
Qed.

(** ** maplist *)
Lemma maplist_loop_ok (f : list (list A) -> comp St B) : forall l more acc s s' r,
  calls f (map (fun i => map (skipn i) (l :: more)) (seq 0 (length l))) s s' r ->
  maplist_loop f l more acc s = (s', option_map (app (rev acc)) r).
Proof.
  induction l as [|a l IH]; intros more acc s s' r C.
  - inversion C; subst. cbn [maplist_loop]. unfold ret. cbn [option_map]. rewrite app_nil_r. reflexivity.
  - cbn [length seq map] in C. rewrite <- seq_shift, map_map in C. cbn [maplist_loop]. cbn [skipn] in C.
    replace (map (fun l0 : list A => l0) more) with more in C by (rewrite map_id; reflexivity).
    inversion C as [|x' xs' s0 s1 s2 b r' Ef Cr|x' xs' s0 s1 Ef]; subst; unfold bind; rewrite Ef; [|reflexivity].
    rewrite (IH (map (@tl A) more) (b :: acc) s1 s' r').
    + destruct r' as [bs|]; cbn [option_map]; [|reflexivity]. cbn [rev]. rewrite <- app_assoc. reflexivity.
    + erewrite map_ext; [exact Cr|]. intros i. cbn [map]. f_equal. rewrite map_map. apply map_ext. intros m. destruct m; [rewrite skipn_nil|]; reflexivity.
Qed.

Theorem maplist_ok (f : list (list A) -> comp St B) l more s s' r :
  calls f (map (fun i => map (skipn i) (l :: more)) (seq 0 (length l))) s s' r -> maplist f l more s = (s', r).
Proof. intros C. unfold maplist. rewrite (maplist_loop_ok f l more [] s s' r C). destruct r; reflexivity. Qed.

(** ** every and some *)
Lemma visits_none_fail {X} stop (f : X -> comp St B) xs s s' r : visits stop f xs s s' r ->
  match r with Some (Some b) => stop b = true | _ => True end.
Proof. intros V. induction V; auto. Qed.

Definition verdict (r : option (option B)) : option bool :=
  option_map (fun o => match o with Some _ => false | None => true end) r.

Lemma every_list_ok truth (f : list A -> comp St B) l : forall s s' r,
  visits (fun b => negb (truth b)) f (map (fun a => [a]) l) s s' r -> every_list truth f l s = (s', verdict r).
Proof.
  induction l as [|a l IH]; intros s s' r V; cbn [map] in V.
  - inversion V; subst. reflexivity.
  - cbn [every_list]. unfold bind.
    inversion V as [|x xs s0 s1 b Ef P|x xs s0 s1 s2 b r' Ef P Vr|x xs s0 s1 Ef]; subst; rewrite Ef; [| |reflexivity].
    + apply negb_true_iff in P. rewrite P. reflexivity.
    + apply negb_false_iff in P. rewrite P. apply IH. exact Vr.
Qed.

Lemma every_loop_ok truth (f : list A -> comp St B) ls : forall xs i s s' r,
  (forall k args, nth_error xs k = Some args -> elts ls (i + k) = Some args) ->
  visits (fun b => negb (truth b)) f xs s s' r -> every_loop truth f ls (length xs) i s = (s', verdict r).
Proof.
  induction xs as [|x xs IH]; intros i s s' r E V.
  - inversion V; subst. reflexivity.
  - cbn [length every_loop]. pose proof (E 0 x eq_refl) as E0. rewrite Nat.add_0_r in E0. rewrite E0. unfold bind.
    inversion V as [|x' xs' s0 s1 b Ef P|x' xs' s0 s1 s2 b r' Ef P Vr|x' xs' s0 s1 Ef]; subst; rewrite Ef; [| |reflexivity].
    + apply negb_true_iff in P. rewrite P. reflexivity.
    + apply negb_false_iff in P. rewrite P. apply IH; [|exact Vr]. intros k args K. specialize (E (S k) args K).
      rewrite <- E. f_equal. lia.
Qed.

Lemma rows_elts (ls : list (list A)) xs : rows ls xs -> forall k args, nth_error xs k = Some args -> elts ls k = Some args.
Proof.
  intros [_ R] k args E. specialize (R k args E). clear E. induction R as [|l a ls args H R IH]; [reflexivity|].
  cbn [elts]. rewrite H, IH. reflexivity.
Qed.

Lemma single_rows (l : list A) xs : rows [l] xs -> xs = map (fun a => [a]) l.
Proof.
  intros [L R]. cbn [hd] in L. revert l L R. induction xs as [|x xs IH]; intros l L R.
  - destruct l; [reflexivity|discriminate].
  - destruct l as [|a l]; [discriminate|]. pose proof (R 0 x eq_refl) as R0. inversion R0 as [|? ? ? ? Ha Hn]; subst.
    inversion Ha; subst. inversion Hn; subst. cbn [map]. f_equal. apply IH; [cbn [length] in L; lia|].
    intros i args E. specialize (R (S i) args E). inversion R as [|? ? ? ? Hb Hm]; subst. inversion Hm; subst.
    constructor; [exact Hb|constructor].
Qed.

Theorem every_ok truth (f : list A -> comp St B) arg more xs s s' r : rows (arg :: more) xs ->
  visits (fun b => negb (truth b)) f xs s s' r -> every truth f arg more s = (s', verdict r).
Proof.
  intros R V. unfold every. destruct more as [|m more].
  - apply single_rows in R. subst xs. apply every_list_ok. exact V.
  - replace (length arg) with (length xs) by (exact (proj1 R)). apply every_loop_ok; [|exact V].
    exact (rows_elts _ _ R).
Qed.

Lemma some_loop_ok truth (f : list A -> comp St B) ls : forall xs i s s' r,
  (forall k args, nth_error xs k = Some args -> elts ls (i + k) = Some args) ->
  visits truth f xs s s' r -> some_loop truth f ls (length xs) i s = (s', r).
Proof.
  induction xs as [|x xs IH]; intros i s s' r E V.
  - inversion V; subst. reflexivity.
  - cbn [length some_loop]. pose proof (E 0 x eq_refl) as E0. rewrite Nat.add_0_r in E0. rewrite E0. unfold bind.
    inversion V as [|x' xs' s0 s1 b Ef P|x' xs' s0 s1 s2 b r' Ef P Vr|x' xs' s0 s1 Ef]; subst; rewrite Ef; [| |reflexivity].
    + rewrite P. reflexivity.
    + rewrite P. apply IH; [|exact Vr]. intros k args K. specialize (E (S k) args K). rewrite <- E. f_equal. lia.
Qed.

Theorem some_ok truth (f : list A -> comp St B) arg more xs s s' r : rows (arg :: more) xs ->
  visits truth f xs s s' r -> some truth f arg more s = (s', r).
Proof.
  intros R V. unfold some. replace (length arg) with (length xs) by (exact (proj1 R)). apply some_loop_ok; [|exact V].
  exact (rows_elts _ _ R).
Qed.
End Proofs.

(** ** mapcan and mapcon *)
Theorem mapcan_ok {St A B} (f : list A -> comp St (list B)) ls xs s s' r : ls <> [] -> rows ls xs -> calls f xs s s' r ->
  MAPCAN f ls s = (s', option_map (@concat B) r).
Proof.
  intros N R C. unfold MAPCAN, bind. rewrite (mapcar_ok f ls xs s s' r N R C). destruct r; reflexivity.
Qed.

Lemma mapcon_loop_ok {St A B} (f : list (list A) -> comp St (list B)) : forall l more acc s s' r,
  calls f (map (fun i => map (skipn i) (l :: more)) (seq 0 (length l))) s s' r ->
  mapcon_loop f l more acc s = (s', option_map (fun bs => rev acc ++ concat (map (@rev B) bs)) r).
Proof.
  induction l as [|a l IH]; intros more acc s s' r C.
  - inversion C; subst. cbn [mapcon_loop]. unfold ret. cbn [option_map map concat]. rewrite app_nil_r. reflexivity.
  - cbn [length seq map] in C. rewrite <- seq_shift, map_map in C. cbn [mapcon_loop]. cbn [skipn] in C.
    replace (map (fun l0 : list A => l0) more) with more in C by (rewrite map_id; reflexivity).
    inversion C as [|x' xs' s0 s1 s2 b r' Ef Cr|x' xs' s0 s1 Ef]; subst; unfold bind; rewrite Ef; [|reflexivity].
    rewrite (IH (map (@tl A) more) (b ++ acc) s1 s' r').
    + destruct r' as [bs|]; cbn [option_map]; [|reflexivity]. rewrite rev_app_distr, <- app_assoc. reflexivity.
    + erewrite map_ext; [exact Cr|]. intros i. cbn [map]. f_equal. rewrite map_map. apply map_ext. intros m. destruct m; [rewrite skipn_nil|]; reflexivity.
Qed.

(** Every part of the result is reversed. *)
Theorem mapcon_ok {St A B} (f : list (list A) -> comp St (list B)) l more s s' r :
  calls f (map (fun i => map (skipn i) (l :: more)) (seq 0 (length l))) s s' r ->
  mapcon f l more s = (s', option_map (fun bs => concat (map (@rev B) bs)) r).
Proof. intros C. unfold mapcon. rewrite (mapcon_loop_ok f l more [] s s' r C). reflexivity. Qed.

Theorem mapcon_short {St A B} (f : list (list A) -> comp St (list B)) l more s s' bs :
  calls f (map (fun i => map (skipn i) (l :: more)) (seq 0 (length l))) s s' (Some bs) ->
  Forall (fun b => length b <= 1) bs -> mapcon f l more s = (s', Some (concat bs)).
Proof.
  intros C F. rewrite (mapcon_ok f l more s s' _ C). cbn [option_map].
  assert (E : map (@rev B) bs = bs).
  { clear C. induction F as [|b bs H F IH]; [reflexivity|]. cbn [map]. rewrite IH. f_equal.
    destruct b as [|x [|y b]]; [reflexivity|reflexivity|cbn [length] in H; lia]. }
  rewrite E. reflexivity.
Qed.

(** ** reduce *)
Lemma reduce_loop_ok {St A} (f : list A -> comp St A) sq : forall n i acc s s' r, i + n <= length sq ->
  folds f acc (firstn n (skipn i sq)) s s' r -> reduce_loop f sq n i acc s = (s', r).
Proof.
  induction n as [|n IH]; intros i acc s s' r H F.
  - cbn [firstn] in F. inversion F; subst. reflexivity.
  - cbn [reduce_loop]. destruct (skipn i sq) as [|x rest] eqn:K.
    { assert (L : length (skipn i sq) = 0) by (rewrite K; reflexivity). rewrite skipn_length in L. lia. }
    assert (N : nth_error sq i = Some x).
    { rewrite <- (firstn_skipn i sq), K. rewrite nth_error_app2; rewrite firstn_length, Nat.min_l by lia; [|lia].
      rewrite Nat.sub_diag. reflexivity. }
    assert (K' : skipn (S i) sq = rest).
    { clear - K. revert sq K. induction i as [|i IH]; intros sq K; [cbn in K; subst; reflexivity|].
      destruct sq; [discriminate|]. apply IH. exact K. }
    cbn [firstn] in F. unfold elt, bind. rewrite N. unfold ret.
    inversion F as [|a x' xs s0 s1 s2 b r' Ef Fr|a x' xs s0 s1 Ef]; subst; rewrite Ef; [|reflexivity].
    apply IH; [lia|]. exact Fr.
Qed.

Definition window {A} (sq : list A) (start end_ : nat) : list A := firstn (end_ - start) (skipn start sq).

Lemma nth_error_skip {A} (l : list A) i x r : skipn i l = x :: r -> nth_error l i = Some x.
Proof. revert l. induction i as [|i IH]; intros l H; [cbn in H; subst; reflexivity|]. destruct l; [discriminate|]. apply IH. exact H. Qed.

Lemma skip_next {A} (l : list A) i x r : skipn i l = x :: r -> skipn (S i) l = r.
Proof. revert l. induction i as [|i IH]; intros l H; [cbn in H; subst; reflexivity|]. destruct l; [discriminate|]. apply IH. exact H. Qed.

Theorem reduce_ok {St A} (f : list A -> comp St A) sq start end_ (fe : bool) initial s s' r :
  start <= end_ -> end_ <= length sq ->
  match initial, window (if fe then rev sq else sq) start end_ with
  | Some v, w => folds f v w s s' r
  | None, [] => f [] s = (s', r)
  | None, x :: w => folds f x w s s' r
  end -> reduce f sq start end_ fe initial s = (s', r).
Proof.
  intros H1 H2 H. unfold reduce. set (q := if fe then rev sq else sq) in *.
  assert (L : length q = length sq) by (unfold q; destruct fe; [apply rev_length|reflexivity]). clearbody q.
  unfold window in H. remember (end_ - start) as n eqn:En.
  assert (HS : length (skipn start q) = length q - start) by (apply skipn_length).
  destruct initial as [v|].
  - destruct n as [|[|n]].
    + cbn [firstn] in H. inversion H; subst. reflexivity.
    + apply (reduce_loop_ok f q 1 start v s s' r); [lia|exact H].
    + apply (reduce_loop_ok f q (S (S n)) start v s s' r); [lia|exact H].
  - destruct n as [|[|n]].
    + exact H.
    + destruct (skipn start q) as [|x rest] eqn:K; [cbn [length] in HS; lia|]. cbn [firstn] in H. inversion H; subst.
      unfold elt. rewrite (nth_error_skip _ _ _ _ K). reflexivity.
    + destruct (skipn start q) as [|x [|y rest]] eqn:K; [cbn [length] in HS; lia|cbn [length] in HS; lia|]. cbn [firstn] in H.
      pose proof (skip_next _ _ _ _ K) as K1. pose proof (skip_next _ _ _ _ K1) as K2.
      unfold elt, bind. rewrite (nth_error_skip _ _ _ _ K), Nat.add_1_r, (nth_error_skip _ _ _ _ K1). unfold ret.
      inversion H as [|a x' xs s0 s1 s2 b r' Ef Fr|a x' xs s0 s1 Ef]; subst; rewrite Ef; [|reflexivity].
      replace (S (S n) - 2) with n by lia. replace (start + 2) with (S (S start)) by lia.
      apply reduce_loop_ok; [lia|]. exact Fr.
Qed.

(** * What is false *)

(** Lists of different lengths: an error, whatever the function. *)
Lemma mapcar_short_refuted : exists (ls : list (list nat)), forall (f : list nat -> comp (list (list nat)) nat),
  ls = [[1]; []] /\ MAPCAR f ls [] = ([], None).
Proof. exists [[1]; []]. intros f. split; reflexivity. Qed.

(** mapc returns NIL, not its list. *)
Lemma mapc_value_refuted : exists (l : list nat), l <> [] /\ MAPC (fun _ => ret 0) [l] tt = (tt, Some []).
Proof. exists [1]. split; [discriminate|reflexivity]. Qed.

Lemma mapcon_refuted : exists (f : list (list nat) -> comp unit (list nat)) l bs,
  calls f (map (fun i => map (skipn i) [l]) (seq 0 (length l))) tt tt (Some bs) /\
  mapcon f l [] tt = (tt, Some [2; 1]) /\ concat bs = [1; 2].
Proof.
  exists (fun _ => ret [1; 2]), [7], [[1; 2]]. split; [|split; reflexivity].
  cbn [length seq map skipn]. apply (calls_ok _ _ _ tt tt tt [1; 2] (Some [])); [reflexivity|constructor].
Qed.

(** From the end: the right fold is meant. *)
Lemma reduce_from_end_refuted : exists (f : nat -> nat -> nat) l init,
  reduce (fun xs => match xs with [x; y] => ret (f x y) | _ => fail end) l 0 (length l) true (Some init) tt
    <> (tt, Some (fold_right f init l)).
Proof. exists (fun x y => 10 * x + y), [1; 2], 3. vm_compute. discriminate. Qed.
