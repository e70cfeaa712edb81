(** Specification and proofs for C18, C19, C54 and C55. *)
From Coq Require Export Sorting.Sorted.
From Verif Require Export SeqModel ListProofs.

(** ** Specification: the indices selected by a predicate in [a, b), in order; a sequence without the elements at
    given indices; a sequence with those elements replaced.  [k] is the index of the first element of [l]. *)
Fixpoint matches {V} (p : V -> bool) (a b k : nat) (l : list V) : list nat :=
  match l with
  | [] => []
  | x :: r => if (a <=? k) && (k <? b) && p x then k :: matches p a b (S k) r else matches p a b (S k) r
  end.
Fixpoint without {V} (s : list nat) (k : nat) (l : list V) : list V :=
  match l with [] => [] | x :: r => if existsb (Nat.eqb k) s then without s (S k) r else x :: without s (S k) r end.
Fixpoint replaced {V} (s : list nat) (new : V) (k : nat) (l : list V) : list V :=
  match l with [] => [] | x :: r => (if existsb (Nat.eqb k) s then new else x) :: replaced s new (S k) r end.

Section Spec.
Context {V : Type} (p : V -> bool) (a b : nat).
Lemma matches_ge : forall l k i, In i (matches p a b k l) -> k <= i < k + length l.
Proof.
  induction l as [|x r IH]; intros k i H; cbn [matches In] in H; [contradiction|].
  destruct ((a <=? k) && (k <? b) && p x); [destruct H as [<-|H]; [cbn; lia|]|]; apply IH in H; cbn; lia.
Qed.
Lemma firstn_In : forall {A} n (l : list A) x, In x (firstn n l) -> In x l.
Proof. induction n; destruct l; cbn; intros x H; try contradiction. destruct H; auto. Qed.
Lemma existsb_notin : forall k s, (forall i, In i s -> k < i) -> existsb (Nat.eqb k) s = false.
Proof.
  induction s as [|y s IH]; intro H; [reflexivity|]. cbn. destruct (Nat.eqb_spec k y) as [->|N].
  - exfalso. specialize (H y (or_introl eq_refl)). lia.
  - cbn. apply IH. intros; apply H; right; auto.
Qed.
Lemma without_skip : forall {W} (l : list W) j s k, j < k -> without (j :: s) k l = without s k l.
Proof.
  induction l as [|x r IH]; intros j s k H; [reflexivity|]. cbn [without existsb]. destruct (Nat.eqb_spec k j); [lia|].
  cbn. rewrite IH by lia. reflexivity.
Qed.
Lemma replaced_skip : forall {W} (l : list W) new j s k, j < k -> replaced (j :: s) new k l = replaced s new k l.
Proof.
  induction l as [|x r IH]; intros new j s k H; [reflexivity|]. cbn [replaced existsb]. destruct (Nat.eqb_spec k j); [lia|].
  cbn. rewrite IH by lia. reflexivity.
Qed.
Lemma without_nil : forall {W} (l : list W) k, without [] k l = l.
Proof. induction l; intros; cbn; [reflexivity|]. f_equal. apply IHl. Qed.
Lemma replaced_nil : forall {W} (l : list W) new k, replaced [] new k l = l.
Proof. induction l; intros; cbn; [reflexivity|]. f_equal. apply IHl. Qed.

Definition sel (c k : nat) (l : list V) := firstn c (matches p a b k l).
Lemma sel_ge : forall c k l i, In i (sel c k l) -> k <= i.
Proof. intros c k l i H. apply firstn_In in H. apply matches_ge in H. lia. Qed.
Lemma sel_hit : forall c k x r, (a <=? k) && (k <? b) && p x = true -> sel (S c) k (x :: r) = k :: sel c (S k) r.
Proof. intros c k x r H. unfold sel. cbn [matches]. rewrite H. reflexivity. Qed.
Lemma sel_miss : forall c k x r, (a <=? k) && (k <? b) && p x = false -> sel c k (x :: r) = sel c (S k) r.
Proof. intros c k x r H. unfold sel. cbn [matches]. rewrite H. reflexivity. Qed.

(** without, with the selecting list possibly different from the one filtered (cells selected by their elements) *)
Lemma without_hit : forall {W} c k x r (y : W) s, (a <=? k) && (k <? b) && p x = true ->
  without (sel (S c) k (x :: r)) k (y :: s) = without (sel c (S k) r) (S k) s.
Proof. intros W c k x r y s H. rewrite (sel_hit c k x r H). cbn [without existsb]. rewrite Nat.eqb_refl. cbn. apply without_skip. lia. Qed.
Lemma without_miss : forall {W} c k x r (y : W) s, (a <=? k) && (k <? b) && p x = false ->
  without (sel c k (x :: r)) k (y :: s) = y :: without (sel c (S k) r) (S k) s.
Proof.
  intros W c k x r y s H. rewrite (sel_miss c k x r H). cbn [without].
  rewrite existsb_notin; [reflexivity|]. intros i Hi. apply sel_ge in Hi. lia.
Qed.
Lemma replaced_hit : forall {W} c k x r (y new : W) s, (a <=? k) && (k <? b) && p x = true ->
  replaced (sel (S c) k (x :: r)) new k (y :: s) = new :: replaced (sel c (S k) r) new (S k) s.
Proof. intros W c k x r y new s H. rewrite (sel_hit c k x r H). cbn [replaced existsb]. rewrite Nat.eqb_refl. cbn. f_equal. apply replaced_skip. lia. Qed.
Lemma replaced_miss : forall {W} c k x r (y new : W) s, (a <=? k) && (k <? b) && p x = false ->
  replaced (sel c k (x :: r)) new k (y :: s) = y :: replaced (sel c (S k) r) new (S k) s.
Proof.
  intros W c k x r y new s H. rewrite (sel_miss c k x r H). cbn [replaced].
  rewrite existsb_notin; [reflexivity|]. intros i Hi. apply sel_ge in Hi. lia.
Qed.

Lemma out_low : forall k x, k < a -> (a <=? k) && (k <? b) && p x = false.
Proof. intros k x H. destruct (Nat.leb_spec a k); [lia|reflexivity]. Qed.
Lemma out_high : forall k x, b <= k -> (a <=? k) && (k <? b) && p x = false.
Proof. intros k x H. destruct (Nat.ltb_spec k b); [lia|]. rewrite andb_false_r. reflexivity. Qed.
Lemma in_range : forall k x, a <= k < b -> (a <=? k) && (k <? b) && p x = p x.
Proof. intros k x H. destruct (Nat.leb_spec a k); [|lia]. destruct (Nat.ltb_spec k b); [|lia]. reflexivity. Qed.

Lemma matches_high : forall l k, b <= k -> matches p a b k l = [].
Proof. induction l as [|x r IH]; intros k H; cbn [matches]; [reflexivity|]. rewrite (out_high k x H). apply IH. lia. Qed.
Lemma sel_high : forall c l k, b <= k -> sel c k l = [].
Proof. intros c l k H. unfold sel. rewrite (matches_high l k H). apply firstn_nil. Qed.
Lemma matches_pre : forall j l k, k + j <= a -> matches p a b k l = matches p a b (k + j) (skipn j l).
Proof.
  induction j as [|j IH]; intros l k H; [rewrite Nat.add_0_r; reflexivity|]. destruct l as [|x r]; [reflexivity|].
  cbn [matches skipn]. rewrite (out_low k x) by lia. rewrite (IH r (S k)) by lia. f_equal. lia.
Qed.
Lemma without_pre : forall {W} j (l : list V) (m : list W) c k, length m = length l -> k + j <= a ->
  without (sel c k l) k m = firstn j m ++ without (sel c (k + j) (skipn j l)) (k + j) (skipn j m).
Proof.
  intros W. induction j as [|j IH]; intros l m c k L H; [rewrite Nat.add_0_r; reflexivity|].
  destruct l as [|x r], m as [|y s]; try discriminate L; [reflexivity|]. cbn [skipn firstn app].
  rewrite (without_miss c k x r y s) by (apply out_low; lia). f_equal.
  rewrite (IH r s c (S k)) by (cbn in L; lia). f_equal. f_equal; [f_equal|]; lia.
Qed.
Lemma replaced_pre : forall {W} j (l : list V) (m : list W) new c k, length m = length l -> k + j <= a ->
  replaced (sel c k l) new k m = firstn j m ++ replaced (sel c (k + j) (skipn j l)) new (k + j) (skipn j m).
Proof.
  intros W. induction j as [|j IH]; intros l m new c k L H; [rewrite Nat.add_0_r; reflexivity|].
  destruct l as [|x r], m as [|y s]; try discriminate L; [reflexivity|]. cbn [skipn firstn app].
  rewrite (replaced_miss c k x r y new s) by (apply out_low; lia). f_equal.
  rewrite (IH r s new c (S k)) by (cbn in L; lia). f_equal. f_equal; [f_equal|]; lia.
Qed.

Lemma remove_loop_ok : forall n c rest stk k, n <= length rest -> a <= k -> (k + n = b \/ n = 0 /\ b <= k) ->
  exists stk' rest', remove_loop p n c rest stk = Ret (stk', rest') /\ rev stk' ++ rest' = rev stk ++ without (sel c k rest) k rest /\
    (length (matches p a b k rest) < c -> rest' = skipn n rest).
Proof.
  induction n as [|n IH]; intros c rest stk k Hn Ha Hb.
  - exists stk, rest. split; [reflexivity|]. split; [|reflexivity]. rewrite sel_high by lia. rewrite without_nil. reflexivity.
  - destruct c as [|c]; [exists stk, rest; split; [reflexivity|]; split; [|intro; lia]; cbn; rewrite without_nil; reflexivity|].
    destruct rest as [|x r]; [cbn in Hn; lia|]. cbn [remove_loop]. destruct Hb as [Hb|Hb]; [|lia].
    cbn [length] in Hn. destruct (p x) eqn:P; pose proof (in_range k x ltac:(lia)) as R; rewrite P in R at 2.
    + destruct (IH c r stk (S k)) as [s' [r' [E [F G]]]]; [lia|lia|lia|]. exists s', r'. split; [exact E|].
      rewrite (without_hit c k x r x r R). split; [exact F|]. cbn [matches]. rewrite R. cbn. intro. apply G. lia.
    + destruct (IH (S c) r (x :: stk) (S k)) as [s' [r' [E [F G]]]]; [lia|lia|lia|]. exists s', r'. split; [exact E|].
      rewrite (without_miss (S c) k x r x r R). split.
      * rewrite F. cbn [rev]. rewrite <- app_assoc. reflexivity.
      * cbn [matches]. rewrite R. exact G.
Qed.
Lemma subst_loop_ok : forall new n c rest stk k, n <= length rest -> a <= k -> (k + n = b \/ n = 0 /\ b <= k) ->
  exists stk' rest', subst_loop p new n c rest stk = Ret (stk', rest') /\ rev stk' ++ rest' = rev stk ++ replaced (sel c k rest) new k rest /\
    (length (matches p a b k rest) < c -> rest' = skipn n rest).
Proof.
  intro new. induction n as [|n IH]; intros c rest stk k Hn Ha Hb.
  - exists stk, rest. split; [reflexivity|]. split; [|reflexivity]. rewrite sel_high by lia. rewrite replaced_nil. reflexivity.
  - destruct c as [|c]; [exists stk, rest; split; [reflexivity|]; split; [|intro; lia]; cbn; rewrite replaced_nil; reflexivity|].
    destruct rest as [|x r]; [cbn in Hn; lia|]. cbn [subst_loop]. destruct Hb as [Hb|Hb]; [|lia].
    cbn [length] in Hn. destruct (p x) eqn:P; pose proof (in_range k x ltac:(lia)) as R; rewrite P in R at 2.
    + destruct (IH c r (new :: stk) (S k)) as [s' [r' [E [F G]]]]; [lia|lia|lia|]. exists s', r'. split; [exact E|].
      rewrite (replaced_hit c k x r x new r R). split; [rewrite F; cbn [rev]; rewrite <- app_assoc; reflexivity|]. cbn [matches]. rewrite R. cbn. intro. apply G. lia.
    + destruct (IH (S c) r (x :: stk) (S k)) as [s' [r' [E [F G]]]]; [lia|lia|lia|]. exists s', r'. split; [exact E|].
      rewrite (replaced_miss (S c) k x r x new r R). split.
      * rewrite F. cbn [rev]. rewrite <- app_assoc. reflexivity.
      * cbn [matches]. rewrite R. exact G.
Qed.

Lemma position_loop_ok : forall n rest k c, a <= k -> (k + n = b \/ n = 0 /\ b <= k) ->
  position_loop p n rest k c = nth_error (matches p a b k rest) (c - 1).
Proof.
  induction n as [|n IH]; intros rest k c Ha Hb.
  - rewrite matches_high by lia. destruct (c - 1); reflexivity.
  - destruct Hb as [Hb|Hb]; [|lia]. cbn [position_loop]. destruct rest as [|x r]; [destruct (c - 1); reflexivity|].
    cbn [matches]. rewrite (in_range k x ltac:(lia)). destruct (p x).
    + destruct (Nat.leb_spec c 1); [replace (c - 1) with 0 by lia; reflexivity|].
      rewrite (IH r (S k) (c - 1)) by lia. replace (c - 1) with (S (c - 1 - 1)) at 2 by lia. reflexivity.
    + apply IH; lia.
Qed.
Lemma find_loop_ok : forall n rest k, a <= k -> (k + n = b \/ n = 0 /\ b <= k) ->
  find_loop p n rest = match matches p a b k rest with [] => None | i :: _ => nth_error rest (i - k) end.
Proof.
  induction n as [|n IH]; intros rest k Ha Hb.
  - rewrite matches_high by lia. reflexivity.
  - destruct Hb as [Hb|Hb]; [|lia]. destruct rest as [|x r]; [reflexivity|]. cbn [find_loop].
    cbn [matches]. rewrite (in_range k x ltac:(lia)). destruct (p x).
    + rewrite Nat.sub_diag. reflexivity.
    + rewrite (IH r (S k)) by lia. destruct (matches p a b (S k) r) as [|i m] eqn:E; [reflexivity|].
      assert (H : In i (matches p a b (S k) r)) by (rewrite E; left; reflexivity). apply matches_ge in H.
      replace (i - k) with (S (i - S k)) by lia. reflexivity.
Qed.
Lemma count_loop_ok : forall n rest k i, a <= k -> (k + n = b \/ n = 0 /\ b <= k) ->
  count_loop p n rest i = length (matches p a b k rest) + i.
Proof.
  induction n as [|n IH]; intros rest k i Ha Hb.
  - rewrite matches_high by lia. reflexivity.
  - destruct Hb as [Hb|Hb]; [|lia]. destruct rest as [|x r]; [reflexivity|]. cbn [count_loop].
    cbn [matches]. rewrite (in_range k x ltac:(lia)). rewrite (IH r (S k)) by lia. destruct (p x); cbn; lia.
Qed.
End Spec.

Lemma skipn_skipn : forall {A} i j (l : list A), skipn i (skipn j l) = skipn (j + i) l.
Proof. intros A i j. induction j as [|j IH]; intros [|x l]; cbn; rewrite ?skipn_nil; auto. Qed.
(** an upper bound beyond the end selects nothing more *)
Lemma matches_min : forall {V} (p : V -> bool) a l k b, matches p a (Nat.min b (k + length l)) k l = matches p a b k l.
Proof.
  intros V p a. induction l as [|x r IH]; intros k b; [reflexivity|]. cbn [matches length].
  replace (k + S (length r)) with (S k + length r) by lia. rewrite IH.
  destruct (Nat.ltb_spec k (Nat.min b (S k + length r))), (Nat.ltb_spec k b); try lia; reflexivity.
Qed.
Lemma sub_cases : forall s e, s + (e - s) = e \/ e - s = 0 /\ e <= s.
Proof. intros. lia. Qed.

(** the whole selection, as used in the theorems *)
Lemma matches_In {V} (p : V -> bool) a b l : forall k i,
  In i (matches p a b k l) <-> a <= i < b /\ k <= i /\ exists x, nth_error l (i - k) = Some x /\ p x = true.
Proof.
  induction l as [|x r IH]; intros k i.
  - cbn [matches In]. split; [tauto|]. intros (_ & _ & y & E & _). destruct (i - k); discriminate E.
  - assert (T : In i (matches p a b k (x :: r)) <-> (i = k /\ a <= k < b /\ p x = true) \/ In i (matches p a b (S k) r)).
    { cbn [matches]. destruct (Nat.leb_spec a k), (Nat.ltb_spec k b), (p x); cbn [andb In]; split; intros H1;
        repeat (destruct H1 as [H1|H1]); auto; try (destruct H1 as (? & ? & ?); try discriminate; lia); try (left; lia). }
    rewrite T, IH. split.
    + intros [(-> & H & P)|(H & K & y & N & P)].
      * split; [lia|]. split; [lia|]. exists x. rewrite Nat.sub_diag. auto.
      * split; [lia|]. split; [lia|]. exists y. replace (i - k) with (S (i - S k)) by lia. auto.
    + intros (H & K & y & N & P). destruct (Nat.eq_dec i k) as [Eq|Ne].
      * subst. rewrite Nat.sub_diag in N. cbn [nth_error] in N. inversion N; subst. left. auto.
      * right. split; [lia|]. split; [lia|]. exists y. replace (i - k) with (S (i - S k)) in N by lia. auto.
Qed.
Lemma matches_sorted {V} (p : V -> bool) a b l : forall k, StronglySorted lt (matches p a b k l).
Proof.
  induction l as [|x r IH]; intros k; cbn [matches]; [constructor|].
  destruct (_ && _ && _); [|apply IH]. constructor; [apply IH|]. apply Forall_forall. intros i H.
  apply matches_In in H. lia.
Qed.

Definition selected {V} (p : V -> bool) (start end_ : nat) (l : list V) : list nat := matches p start end_ 0 l.

Lemma POSITION_list_ok : forall {V} (t : tests V) l s e c, POSITION_list t l s e c = nth_error (selected (testresult t) s e l) (c - 1).
Proof.
  intros V t l s e c. unfold POSITION_list, selected. rewrite (matches_pre (testresult t) s e s l 0) by lia. cbn [plus].
  destruct (skipn s l) as [|x r] eqn:E; [destruct (c - 1); reflexivity|].
  apply position_loop_ok; [lia|apply sub_cases].
Qed.
Lemma POSITION_vec_ok : forall {V} (t : tests V) l s e c, POSITION_vec t l s e c = nth_error (selected (testresult t) s e l) (c - 1).
Proof.
  intros V t l s e c. unfold POSITION_vec, selected. rewrite <- (matches_min (testresult t) s l 0 e). cbn [plus].
  rewrite (matches_pre (testresult t) s _ s l 0) by lia. cbn [plus]. apply position_loop_ok; [lia|apply sub_cases].
Qed.
Lemma nth_error_skipn' : forall {V} (l : list V) s i, s <= i -> nth_error (skipn s l) (i - s) = nth_error l i.
Proof. intros V l s. revert l. induction s as [|s IH]; intros l i H; [rewrite Nat.sub_0_r; reflexivity|]. destruct i as [|i]; [lia|]. destruct l; [destruct (S i - S s); reflexivity|]. cbn [skipn nth_error]. apply IH. lia. Qed.
Lemma FIND_list_ok : forall {V} (t : tests V) l s e, FIND_list t l s e = match selected (testresult t) s e l with [] => None | i :: _ => nth_error l i end.
Proof.
  intros V t l s e. unfold FIND_list, selected. rewrite (matches_pre (testresult t) s e s l 0) by lia. cbn [plus].
  destruct (skipn s l) as [|x r] eqn:E; [reflexivity|]. rewrite <- E.
  rewrite (find_loop_ok (testresult t) s e _ _ s) by (auto using sub_cases).
  destruct (matches (testresult t) s e s (skipn s l)) as [|i m] eqn:M; [reflexivity|].
  assert (H : In i (matches (testresult t) s e s (skipn s l))) by (rewrite M; left; reflexivity). apply matches_ge in H.
  apply nth_error_skipn'. lia.
Qed.
Lemma FIND_vec_ok : forall {V} (t : tests V) l s e, FIND_vec t l s e = match selected (testresult t) s e l with [] => None | i :: _ => nth_error l i end.
Proof.
  intros V t l s e. unfold FIND_vec, selected. rewrite <- (matches_min (testresult t) s l 0 e). cbn [plus].
  set (e' := Nat.min e (length l)). rewrite (matches_pre (testresult t) s e' s l 0) by lia. cbn [plus].
  rewrite (find_loop_ok (testresult t) s e' _ _ s) by (auto using sub_cases).
  destruct (matches (testresult t) s e' s (skipn s l)) as [|i m] eqn:M; [reflexivity|].
  assert (H : In i (matches (testresult t) s e' s (skipn s l))) by (rewrite M; left; reflexivity). apply matches_ge in H.
  apply nth_error_skipn'. lia.
Qed.
Lemma COUNT_vec_ok : forall {V} (t : tests V) l s e, COUNT_vec t l s e = Some (length (selected (testresult t) s e l)).
Proof.
  intros V t l s e. unfold COUNT_vec, selected. rewrite <- (matches_min (testresult t) s l 0 e). cbn [plus].
  set (e' := Nat.min e (length l)). rewrite (matches_pre (testresult t) s e' s l 0) by lia. cbn [plus].
  rewrite (count_loop_ok (testresult t) s e' _ _ s) by (auto using sub_cases). f_equal. lia.
Qed.
Lemma COUNT_list_ok : forall {V} (t : tests V) l s e, l = [] \/ s < length l -> COUNT_list t l s e = Some (length (selected (testresult t) s e l)).
Proof.
  intros V t l s e H. unfold COUNT_list, selected. destruct l as [|x0 l0]; [reflexivity|]. destruct H as [H|H]; [discriminate|].
  set (l := x0 :: l0) in *. rewrite (matches_pre (testresult t) s e s l 0) by lia. cbn [plus].
  destruct (skipn s l) as [|x r] eqn:E.
  - apply (f_equal (@length V)) in E. rewrite skipn_length in E. change (length (@nil V)) with 0 in E. lia.
  - rewrite (count_loop_ok (testresult t) s e _ _ s) by (auto using sub_cases). f_equal. lia.
Qed.

Lemma UNIREMOVE_list_ok : forall {V} (t : tests V) l s e c, e <= length l ->
  UNIREMOVE_list t l s e c = Ret (without (firstn c (selected (testresult t) s e l)) 0 l).
Proof.
  intros V t l s e c H. unfold UNIREMOVE_list. destruct l as [|x0 l0]; [reflexivity|]. set (l := x0 :: l0) in *.
  unfold selected. fold (sel (testresult t) s e c 0 l).
  rewrite (without_pre (testresult t) s e s l l c 0) by (auto; lia). cbn [plus].
  destruct (remove_loop_ok (testresult t) s e (e - s) c (skipn s l) (rev (firstn s l)) s) as [s' [r' [E [F _]]]];
    [rewrite skipn_length; lia|lia|apply sub_cases|].
  rewrite E. cbn [bind]. rewrite F, rev_involutive. reflexivity.
Qed.
Lemma UNIREMOVE_vec_ok : forall {V} (t : tests V) l s e c, s <= Nat.min e (length l) -> length (selected (testresult t) s e l) < c ->
  UNIREMOVE_vec t l s e c = Ret (without (firstn c (selected (testresult t) s e l)) 0 l).
Proof.
  intros V t l s e c Hs H. unfold UNIREMOVE_vec. unfold selected in *. rewrite <- (matches_min (testresult t) s l 0 e) in *. cbn [plus] in *.
  set (e' := Nat.min e (length l)) in *. rewrite (matches_pre (testresult t) s e' s l 0) in H by lia. cbn [plus] in H.
  fold (sel (testresult t) s e' c 0 l).
  rewrite (without_pre (testresult t) s e' s l l c 0) by (auto; lia). cbn [plus].
  destruct (remove_loop_ok (testresult t) s e' (e' - s) c (skipn s l) (rev (firstn s l)) s) as [s' [r' [E [F G]]]];
    [rewrite skipn_length; subst e'; lia|lia|apply sub_cases|].
  rewrite E. cbn [bind]. rewrite (G H) in F. rewrite rev_involutive in F. rewrite <- F. f_equal. f_equal.
  rewrite skipn_skipn. f_equal. subst e'. lia.
Qed.
Lemma SUBSTITUTE_list_ok : forall {V} (t : tests V) new l s e c, e <= length l ->
  SUBSTITUTE_list t new l s e c = Ret (replaced (firstn c (selected (testresult t) s e l)) new 0 l).
Proof.
  intros V t new l s e c H. unfold SUBSTITUTE_list. destruct l as [|x0 l0]; [reflexivity|]. set (l := x0 :: l0) in *.
  unfold selected. fold (sel (testresult t) s e c 0 l).
  rewrite (replaced_pre (testresult t) s e s l l new c 0) by (auto; lia). cbn [plus].
  destruct (subst_loop_ok (testresult t) s e new (e - s) c (skipn s l) (rev (firstn s l)) s) as [s' [r' [E [F _]]]];
    [rewrite skipn_length; lia|lia|apply sub_cases|].
  rewrite E. cbn [bind]. rewrite F, rev_involutive. reflexivity.
Qed.
Lemma SUBSTITUTE_vec_ok : forall {V} (t : tests V) new l s e c, s <= Nat.min e (length l) -> length (selected (testresult t) s e l) < c ->
  SUBSTITUTE_vec t new l s e c = Ret (replaced (firstn c (selected (testresult t) s e l)) new 0 l).
Proof.
  intros V t new l s e c Hs H. unfold SUBSTITUTE_vec. unfold selected in *. rewrite <- (matches_min (testresult t) s l 0 e) in *. cbn [plus] in *.
  set (e' := Nat.min e (length l)) in *. rewrite (matches_pre (testresult t) s e' s l 0) in H by lia. cbn [plus] in H.
  fold (sel (testresult t) s e' c 0 l).
  rewrite (replaced_pre (testresult t) s e' s l l new c 0) by (auto; lia). cbn [plus].
  destruct (subst_loop_ok (testresult t) s e' new (e' - s) c (skipn s l) (rev (firstn s l)) s) as [s' [r' [E [F G]]]];
    [rewrite skipn_length; subst e'; lia|lia|apply sub_cases|].
  rewrite E. cbn [bind]. rewrite (G H) in F. rewrite rev_involutive in F. rewrite <- F. f_equal. f_equal.
  rewrite skipn_skipn. f_equal. subst e'. lia.
Qed.

(** ** NSUBSTITUTE and DELETE on vectors *)
Lemma vset_length : forall {V} i (x : V) v, length (vset i x v) = length v.
Proof. intros V i x v. revert i. induction v; intros [|i]; cbn; auto. Qed.
Lemma vset_app : forall {V} pre (x y : V) post, vset (length pre) x (pre ++ y :: post) = pre ++ x :: post.
Proof. induction pre; intros; cbn; [reflexivity|]. f_equal. apply IHpre. Qed.
Lemma vset_nth : forall {V} v i j (x : V), nth_error (vset i x v) j = if Nat.eqb i j && (j <? length v) then Some x else nth_error v j.
Proof.
  intros V. induction v as [|y r IH]; intros [|i] [|j] x; cbn; try reflexivity.
  - destruct (Nat.eqb_spec i j); reflexivity.
  - rewrite IH. destruct (Nat.eqb i j); cbn; [|reflexivity]. destruct (Nat.ltb_spec j (length r)), (Nat.ltb_spec (S j) (S (length r))); try lia; reflexivity.
Qed.

Lemma nsubst_vec_loop_ok : forall {V} (p : V -> bool) a b new d n c pre rest, n <= length rest -> a <= length pre ->
  (length pre + n = b \/ n = 0 /\ b <= length pre) ->
  nsubst_vec_loop p new d n c (length pre) (pre ++ rest) = pre ++ replaced (sel p a b c (length pre) rest) new (length pre) rest.
Proof.
  intros V p a b new d. induction n as [|n IH]; intros c pre rest Hn Ha Hb.
  - rewrite sel_high by lia. rewrite replaced_nil. reflexivity.
  - destruct c as [|c]; [cbn; rewrite replaced_nil; reflexivity|]. destruct rest as [|x r]; [cbn in Hn; lia|].
    destruct Hb as [Hb|Hb]; [|lia]. cbn [nsubst_vec_loop]. cbn [length] in Hn.
    rewrite app_nth2, Nat.sub_diag by lia. cbn [nth]. 
    assert (Ln : forall y : V, length (pre ++ [y]) = S (length pre)) by (intro; rewrite app_length; cbn; lia).
    destruct (p x) eqn:P; pose proof (in_range p a b (length pre) x ltac:(lia)) as R; rewrite P in R at 2.
    + rewrite vset_app. replace (pre ++ new :: r) with ((pre ++ [new]) ++ r) by (rewrite <- app_assoc; reflexivity).
      rewrite <- (Ln new), IH by (rewrite ?Ln; lia). rewrite (Ln new). rewrite (replaced_hit p a b c (length pre) x r x new r R).
      rewrite <- app_assoc. reflexivity.
    + replace (pre ++ x :: r) with ((pre ++ [x]) ++ r) by (rewrite <- app_assoc; reflexivity).
      rewrite <- (Ln x), IH by (rewrite ?Ln; lia). rewrite (Ln x). rewrite (replaced_miss p a b (S c) (length pre) x r x new r R).
      rewrite <- app_assoc. reflexivity.
Qed.
Lemma NSUBSTITUTE_vec_ok : forall {V} (t : tests V) new l s e c,
  NSUBSTITUTE_vec t new l s e c = replaced (firstn c (selected (testresult t) s e l)) new 0 l.
Proof.
  intros V t new l s e c. unfold NSUBSTITUTE_vec, selected. rewrite <- (matches_min (testresult t) s l 0 e). cbn [plus].
  set (e' := Nat.min e (length l)). fold (sel (testresult t) s e' c 0 l).
  destruct (Nat.le_gt_cases (length l) s) as [H|H].
  - replace (e' - s) with 0 by (subst e'; lia). cbn [nsubst_vec_loop].
    replace (sel (testresult t) s e' c 0 l) with (@nil nat); [rewrite replaced_nil; reflexivity|].
    unfold sel. rewrite (matches_pre (testresult t) s e' s l 0) by lia. rewrite skipn_all2 by lia. cbn. rewrite firstn_nil. reflexivity.
  - rewrite (replaced_pre (testresult t) s e' s l l new c 0) by (auto; lia). cbn [plus].
    assert (Lf : length (firstn s l) = s) by (rewrite firstn_length; lia).
    pose proof (nsubst_vec_loop_ok (testresult t) s e' new new (e' - s) c (firstn s l) (skipn s l)) as X.
    rewrite Lf, firstn_skipn in X. apply X; [rewrite skipn_length; subst e'; lia|lia|apply sub_cases].
Qed.

Lemma delete_vec_loop_ok : forall {V} (p : V -> bool) a b d n c k kept gap rest, n <= length rest -> a <= k ->
  k = length kept + length gap -> k + n = b -> length (matches p a b k rest) < c ->
  exists v, delete_vec_loop p d n c k (length kept) (kept ++ gap ++ rest) = (v, length (kept ++ without (sel p a b c k (firstn n rest)) k (firstn n rest))) /\
    firstn (length (kept ++ without (sel p a b c k (firstn n rest)) k (firstn n rest))) v = kept ++ without (sel p a b c k (firstn n rest)) k (firstn n rest).
Proof.
  intros V p a b d. induction n as [|n IH]; intros c k kept gap rest Hn Ha Hk Hb Hc.
  - cbn. rewrite app_nil_r. eexists. split; [reflexivity|]. rewrite firstn_app, Nat.sub_diag, firstn_all. cbn. apply app_nil_r.
  - destruct c as [|c]; [lia|]. destruct rest as [|x r]; [cbn in Hn; lia|]. cbn [length] in Hn. cbn [delete_vec_loop firstn].
    assert (N : nth k (kept ++ gap ++ x :: r) d = x).
    { rewrite app_nth2 by lia. rewrite app_nth2 by lia. replace (k - length kept - length gap) with 0 by lia. reflexivity. }
    rewrite N. cbn [matches] in Hc. rewrite (in_range p a b k x ltac:(lia)) in Hc. destruct (p x) eqn:P; pose proof (in_range p a b k x ltac:(lia)) as R; rewrite P in R at 2.
    + cbn [length] in Hc. rewrite (without_hit p a b c k x (firstn n r) x (firstn n r) R).
      replace (kept ++ gap ++ x :: r) with (kept ++ (gap ++ [x]) ++ r) by (rewrite <- app_assoc; reflexivity).
      apply (IH c (S k) kept (gap ++ [x]) r); rewrite ?app_length; cbn; lia.
    + rewrite (without_miss p a b (S c) k x (firstn n r) x (firstn n r) R).
      assert (Q : exists gap', length gap' = length gap /\ (if Nat.eqb k (length kept) then kept ++ gap ++ x :: r else vset (length kept) x (kept ++ gap ++ x :: r)) = (kept ++ [x]) ++ gap' ++ r).
      { destruct (Nat.eqb_spec k (length kept)) as [Ek|Ek].
        - exists []. destruct gap; [|cbn in Hk; lia]. split; [reflexivity|]. cbn. rewrite <- app_assoc. reflexivity.
        - destruct gap as [|g gap]; [cbn in Hk; lia|]. exists (gap ++ [x]). split; [rewrite app_length; cbn; lia|].
          cbn [app]. rewrite vset_app. rewrite <- !app_assoc. reflexivity. }
      destruct Q as [gap' [Lg ->]].
      destruct (IH (S c) (S k) (kept ++ [x]) gap' r) as [v [E F]]; [lia|lia|rewrite app_length; cbn; lia|lia|lia|].
      replace (length (kept ++ [x])) with (S (length kept)) in E by (rewrite app_length; cbn; lia).
      set (W := without _ (S k) _) in *.
      replace ((kept ++ [x]) ++ W) with (kept ++ x :: W) in * by (rewrite <- app_assoc; reflexivity).
      exists v. split; [exact E|exact F].
Qed.
Lemma firstn_len_app : forall {V} (l : list V) s, firstn s l ++ skipn s l = l.
Proof. intros. apply firstn_skipn. Qed.
Lemma DELETE_vec_ok : forall {V} (t : tests V) l s e c, s <= length l -> length l <= e -> length (selected (testresult t) s e l) < c ->
  DELETE_vec t l s e c = without (firstn c (selected (testresult t) s e l)) 0 l.
Proof.
  intros V t l s e c Hs He Hc. unfold DELETE_vec, selected in *. rewrite <- (matches_min (testresult t) s l 0 e) in *. cbn [plus] in *.
  set (e' := Nat.min e (length l)) in *. assert (Ee : e' = length l) by (subst e'; lia).
  rewrite (matches_pre (testresult t) s e' s l 0) in Hc by lia. cbn [plus] in Hc.
  fold (sel (testresult t) s e' c 0 l). rewrite (without_pre (testresult t) s e' s l l c 0) by (auto; lia). cbn [plus].
  assert (Lf : length (firstn s l) = s) by (rewrite firstn_length; lia).
  assert (Lk : e' - s = length (skipn s l)) by (rewrite skipn_length; lia).
  destruct (delete_vec_loop_ok (testresult t) s e' (t_item t) (e' - s) c s (firstn s l) [] (skipn s l)) as [v [E F]]; [lia|lia|cbn; lia|lia|exact Hc|].
  rewrite Lf in E. cbn [app] in E. rewrite firstn_skipn in E. rewrite Lk, firstn_all in E, F. rewrite Lk, E. exact F.
Qed.

(** ** REMOVE_DUPLICATES: an element goes when a later one in the range is a duplicate of it *)
Fixpoint last_ones {V} (q : V -> V -> bool) (l : list V) : list V :=
  match l with [] => [] | x :: r => if existsb (q x) r then last_ones q r else x :: last_ones q r end.
Lemma dup_in_ok : forall {V} (q : V -> V -> bool) e n l, dup_in q e n l = existsb (q e) (firstn n l).
Proof. intros V q e. induction n as [|n IH]; intros [|x r]; cbn; try reflexivity. rewrite IH. destruct (q e x); reflexivity. Qed.
Lemma dup_loop_ok : forall {V} (q : V -> V -> bool) n rest stk,
  dup_loop q n rest stk = (rev (last_ones q (firstn n rest)) ++ stk, skipn n rest).
Proof.
  intros V q. induction n as [|n IH]; intros [|x r] stk; cbn [dup_loop firstn skipn last_ones rev app]; try reflexivity.
  rewrite IH, dup_in_ok. destruct (existsb (q x) (firstn n r)); cbn [rev]; [reflexivity|]. rewrite <- app_assoc. reflexivity.
Qed.
Lemma REMOVE_DUPLICATES_list_ok : forall {V} (t : tests V) l s e, s <= e ->
  REMOVE_DUPLICATES_list t l s e = firstn s l ++ last_ones (dup_test t) (firstn (e - s) (skipn s l)) ++ skipn e l.
Proof.
  intros V t l s e H. unfold REMOVE_DUPLICATES_list. rewrite dup_loop_ok. rewrite rev_app_distr, !rev_involutive, <- app_assoc.
  f_equal. f_equal. rewrite skipn_skipn. f_equal. lia.
Qed.
Lemma firstn_min : forall {V} (l : list V) e, firstn (Nat.min e (length l)) l = firstn e l.
Proof. intros V l e. destruct (Nat.le_gt_cases e (length l)); [f_equal; lia|]. rewrite !firstn_all2; auto; lia. Qed.
Lemma REMOVE_DUPLICATES_vec_ok : forall {V} (t : tests V) l s e, s <= Nat.min e (length l) ->
  REMOVE_DUPLICATES_vec t l s e = firstn s l ++ last_ones (dup_test t) (firstn (e - s) (skipn s l)) ++ skipn e l.
Proof.
  intros V t l s e H. unfold REMOVE_DUPLICATES_vec. rewrite dup_loop_ok. rewrite rev_app_distr, !rev_involutive, <- app_assoc.
  f_equal. f_equal.
  - f_equal. destruct (Nat.le_gt_cases e (length l)); [f_equal; lia|]. rewrite !firstn_all2; auto; rewrite skipn_length; lia.
  - destruct (Nat.le_gt_cases e (length l)); [f_equal; lia|]. rewrite !skipn_all2; auto; lia.
Qed.

Lemma last_ones_in : forall {V} (q : V -> V -> bool) l x, In x (last_ones q l) -> In x l.
Proof. intros V q. induction l as [|y r IH]; cbn; intros x H; [contradiction|]. destruct (existsb (q y) r); [right; auto|]. destruct H; auto. Qed.
Lemma last_ones_covers : forall {V} (q : V -> V -> bool), (forall x, q x x = true) -> (forall x y z, q x y = true -> q y z = true -> q x z = true) ->
  forall l x, In x l -> exists y, In y (last_ones q l) /\ q x y = true.
Proof.
  intros V q Rf Tr. induction l as [|y r IH]; cbn; intros x H; [contradiction|].
  destruct (existsb (q y) r) eqn:E.
  - destruct H as [<-|H]; [|auto]. apply existsb_exists in E. destruct E as [z [Hz Qz]]. destruct (IH z Hz) as [w [Hw Qw]]. exists w. eauto.
  - destruct H as [<-|H]; [exists y; split; [left; reflexivity|apply Rf]|]. destruct (IH x H) as [w [Hw Qw]]. exists w. split; [right; exact Hw|exact Qw].
Qed.
(** no two members are related, in list order *)
Lemma last_ones_distinct : forall {V} (q : V -> V -> bool) l, ForallOrdPairs (fun x y => q x y = false) (last_ones q l).
Proof.
  intros V q. induction l as [|y r IH]; cbn; [constructor|]. destruct (existsb (q y) r) eqn:E; [exact IH|]. constructor; [|exact IH].
  apply Forall_forall. intros x Hx. apply last_ones_in in Hx. destruct (q y x) eqn:Q; [|reflexivity].
  assert (existsb (q y) r = true) by (apply existsb_exists; eauto). congruence.
Qed.

(** ** the set functions *)
(** [same t x y]: x and y are the same element according to the test and the key *)
Definition same {V} (t : tests V) (x y : V) : bool := dup_test t x y.
Lemma member_of_key : forall {V} (t : tests V) x l, member_of t (t_key t x) l = existsb (same t x) l.
Proof. reflexivity. Qed.
Lemma fold_filter : forall {V} (f : V -> bool) l acc, fold_left (fun r x => if f x then x :: r else r) l acc = rev (filter f l) ++ acc.
Proof. intros V f. induction l as [|x r IH]; intro acc; cbn; [reflexivity|]. rewrite IH. destruct (f x); cbn; [rewrite <- app_assoc|]; reflexivity. Qed.
Lemma intersection_ok : forall {V} (t : tests V) l1 l2, intersection t l1 l2 = rev (filter (fun x => existsb (same t x) l2) l1).
Proof. intros. unfold intersection. rewrite (fold_filter (fun x => member_of t (t_key t x) l2)). apply app_nil_r. Qed.
Lemma set_difference_ok : forall {V} (t : tests V) l1 l2, set_difference t l1 l2 = filter (fun x => negb (existsb (same t x) l2)) l1.
Proof.
  intros. unfold set_difference. rewrite <- (rev_involutive (filter _ _)). f_equal. rewrite <- (app_nil_r (rev (filter _ _))). rewrite <- fold_filter.
  generalize (@nil V). induction l1 as [|x r IH]; intro acc; cbn; [reflexivity|]. rewrite (member_of_key t x l2). destruct (existsb (same t x) l2); cbn; apply IH.
Qed.
Lemma union_step_spec : forall {V} (t : tests V) l acc, (forall x, same t x x = true) -> (forall x y z, same t x y = true -> same t y z = true -> same t x z = true) ->
  (forall x y, same t x y = true -> same t y x = true) ->
  let r := fold_left (union_step t) l acc in
  ForallOrdPairs (fun x y => same t x y = false) acc ->
  (forall x, In x r -> In x acc \/ In x l) /\ (forall x, In x acc -> In x r) /\ (forall x, In x l -> exists y, In y r /\ same t x y = true) /\
  ForallOrdPairs (fun x y => same t x y = false) r.
Proof.
  intros V t l acc Rf Tr Sy. revert acc. induction l as [|x l IH]; intros acc; cbn [fold_left].
  - intros D. cbn. split; [auto|]. split; [auto|]. split; [contradiction|exact D].
  - assert (Es : union_step t acc x = if existsb (same t x) acc then acc else x :: acc) by reflexivity.
    rewrite Es. destruct (existsb (same t x) acc) eqn:E; intro D.
    + destruct (IH acc D) as [A [B [C F]]]. split; [intros y Hy; destruct (A y Hy); cbn; auto|]. split; [exact B|]. split; [|exact F].
      intros y [<-|Hy]; [|auto]. apply existsb_exists in E. destruct E as [z [Hz Qz]]. exists z. auto.
    + assert (D' : ForallOrdPairs (fun x y => same t x y = false) (x :: acc)).
      { constructor; [|exact D]. apply Forall_forall. intros y Hy. destruct (same t x y) eqn:Q; [|reflexivity].
        assert (existsb (same t x) acc = true) by (apply existsb_exists; eauto). congruence. }
      destruct (IH (x :: acc) D') as [A [B [C F]]]. split; [|split; [|split]].
      * intros y Hy. destruct (A y Hy) as [[->|H]|H]; cbn; auto.
      * intros y Hy. apply B. right. exact Hy.
      * intros y [<-|Hy]; [|auto]. exists x. split; [apply B; left; reflexivity|apply Rf].
      * exact F.
Qed.
Lemma FOP_rev : forall {V} (R : V -> V -> Prop) l, (forall x y, R x y -> R y x) -> ForallOrdPairs R l -> ForallOrdPairs R (rev l).
Proof.
  intros V R l Sy. induction 1 as [|x l H D IH]; [constructor|]. cbn.
  assert (G : Forall (fun y => R y x) (rev l)) by (apply Forall_rev; eapply Forall_impl; [|exact H]; auto). clear H D.
  induction IH as [|y l' H D IH2]; cbn in *; [repeat constructor|]. inversion_clear G. constructor; [|auto].
  apply Forall_app. split; [exact H|]. constructor; [assumption|constructor].
Qed.
Lemma union_ok : forall {V} (t : tests V) l1 l2, (forall x, same t x x = true) -> (forall x y z, same t x y = true -> same t y z = true -> same t x z = true) ->
  (forall x y, same t x y = true -> same t y x = true) ->
  (forall x, In x (union t l1 l2) -> In x l1 \/ In x l2) /\
  (forall x, In x l1 \/ In x l2 -> exists y, In y (union t l1 l2) /\ same t x y = true) /\
  ForallOrdPairs (fun x y => same t x y = false) (union t l1 l2).
Proof.
  intros V t l1 l2 Rf Tr Sy. unfold union.
  destruct (union_step_spec t l1 [] Rf Tr Sy) as [A1 [B1 [C1 D1]]]; [constructor|]. set (u := fold_left (union_step t) l1 []) in *.
  destruct (union_step_spec t l2 u Rf Tr Sy D1) as [A2 [B2 [C2 D2]]]. set (w := fold_left (union_step t) l2 u) in *.
  split; [|split].
  - intros x H. apply in_rev in H. destruct (A2 x H) as [H2|H2]; [|auto]. destruct (A1 x H2) as [[]|H1]. auto.
  - intros x [H|H].
    + destruct (C1 x H) as [y [Hy Q]]. exists y. split; [apply in_rev; rewrite rev_involutive; auto|exact Q].
    + destruct (C2 x H) as [y [Hy Q]]. exists y. split; [apply in_rev; rewrite rev_involutive; auto|exact Q].
  - apply FOP_rev; [|exact D2]. intros x y H. destruct (same t y x) eqn:E; [|reflexivity]. apply Sy in E. congruence.
Qed.
Lemma set_exclusive_or_ok : forall {V} (t : tests V) l1 l2, (forall x, t_key t x = x) ->
  forall x, In x (set_exclusive_or t l1 l2) <-> (In x l1 /\ existsb (same t x) l2 = false) \/ (In x l2 /\ existsb (same t x) l1 = false).
Proof.
  intros V t l1 l2 K x. unfold set_exclusive_or. rewrite in_app_iff.
  assert (G : forall a b, In x (fold_left (fun r y => if member_of t (t_key t y) b then r else t_key t y :: r) a []) <-> In x a /\ existsb (same t x) b = false).
  { intros a b. rewrite <- (app_nil_r (fold_left _ a [])).
    assert (H : forall acc, In x (fold_left (fun r y => if member_of t (t_key t y) b then r else t_key t y :: r) a acc) <-> In x acc \/ In x a /\ existsb (same t x) b = false).
    { induction a as [|y r IH]; intro acc; cbn; [tauto|]. rewrite IH, (member_of_key t y b), K. destruct (existsb (same t y) b) eqn:E; cbn.
      - split; [tauto|]. intros [H|[[->|H] H2]]; [tauto|congruence|tauto].
      - split; [|tauto]. intros [[->|H]|H]; tauto. }
    rewrite app_nil_r, H. cbn. tauto. }
  rewrite !G. tauto.
Qed.

(** ** VECREPLACE *)
Lemma store_range_nth : forall {V} xs (v : list V) ds i, ds + length xs <= length v ->
  nth_error (store_range v ds xs) i = if (ds <=? i) && (i <? ds + length xs) then nth_error xs (i - ds) else nth_error v i.
Proof.
  intros V. induction xs as [|x r IH]; intros v ds i H; cbn [store_range length] in *.
  - destruct (Nat.leb_spec ds i), (Nat.ltb_spec i (ds + 0)); try lia; reflexivity.
  - rewrite IH by (rewrite vset_length; lia). rewrite vset_nth.
    destruct (Nat.leb_spec (S ds) i), (Nat.ltb_spec i (S ds + length r)), (Nat.leb_spec ds i), (Nat.ltb_spec i (ds + S (length r))); cbn [andb]; try lia.
    + replace (i - ds) with (S (i - S ds)) by lia. reflexivity.
    + destruct (Nat.eqb_spec ds i); [lia|]. reflexivity.
    + replace i with ds by lia. rewrite Nat.eqb_refl, Nat.sub_diag. destruct (Nat.ltb_spec ds (length v)); [reflexivity|lia].
    + destruct (Nat.eqb_spec ds i); [lia|]. reflexivity.
Qed.
Lemma store_range_length : forall {V} xs (v : list V) ds, length (store_range v ds xs) = length v.
Proof. intros V. induction xs; intros; cbn; [reflexivity|]. rewrite IHxs. apply vset_length. Qed.
Lemma nth_error_firstn : forall {V} n (l : list V) i, i < n -> nth_error (firstn n l) i = nth_error l i.
Proof. induction n; intros [|x l] [|i] H; cbn; try lia; try reflexivity. apply IHn. lia. Qed.
Lemma nth_error_skipn : forall {V} (l : list V) s i, nth_error (skipn s l) i = nth_error l (s + i).
Proof. intros. rewrite <- (nth_error_skipn' l s (s + i)) by lia. f_equal. lia. Qed.

Lemma VECREPLACE_ok : forall {V} bit (dest : list V) src ds de ss se,
  let s := match src with Some s => s | None => dest end in
  let count := Nat.min (de - ds) (se - ss) in
  ds <= de <= length dest -> ss <= se <= length s ->
  (bit = true \/ src <> None \/ ss + count <= ds \/ ds + count <= ss) ->
  exists d, VECREPLACE bit dest src ds de ss se = Ret d /\ length d = length dest /\
    forall i, nth_error d i = if (ds <=? i) && (i <? ds + count) then nth_error s (ss + (i - ds)) else nth_error dest i.
Proof.
  intros V bit dest src ds de ss se s count Hd Hs Ho. unfold VECREPLACE. fold s. fold count.
  destruct (Nat.ltb_spec de ds); [lia|]. destruct (Nat.ltb_spec se ss); [lia|]. cbn [orb].
  destruct (Nat.eqb_spec count 0) as [C0|C0].
  - exists dest. split; [reflexivity|]. split; [reflexivity|]. intro i. destruct (Nat.leb_spec ds i), (Nat.ltb_spec i (ds + count)); try lia; reflexivity.
  - destruct (Nat.ltb_spec (length s) (ss + count)); [subst count; lia|]. destruct (Nat.ltb_spec (length dest) (ds + count)); [subst count; lia|]. cbn [orb].
    assert (Lc : length (firstn count (skipn ss s)) = count) by (rewrite firstn_length, skipn_length; lia).
    assert (R : forall b, b = false -> exists d, (if b then Undef else Ret (store_range dest ds (firstn count (skipn ss s)))) = Ret d /\ length d = length dest /\
      forall i, nth_error d i = if (ds <=? i) && (i <? ds + count) then nth_error s (ss + (i - ds)) else nth_error dest i).
    { intros b ->. eexists. split; [reflexivity|]. split; [apply store_range_length|]. intro i. rewrite store_range_nth by lia. rewrite Lc.
      destruct (Nat.leb_spec ds i), (Nat.ltb_spec i (ds + count)); cbn [andb]; try reflexivity.
      rewrite nth_error_firstn by lia. apply nth_error_skipn. }
    apply R. destruct Ho as [->|[Ho|Ho]]; [reflexivity| |].
    + destruct src; [|contradiction]. apply andb_false_r.
    + destruct src; [apply andb_false_r|]. destruct (Nat.ltb_spec ss (ds + count)), (Nat.ltb_spec ds (ss + count)); try lia; cbn; apply andb_false_r.
Qed.

(** ** sorting *)
Section Sorting.
Context {V : Type} (pred : V -> V -> bool) (R : V -> V -> Prop).
Lemma merge_eq : forall cmp (l1 l2 : list V), merge cmp l1 l2 =
  match l1, l2 with [], _ => l2 | _, [] => l1 | x :: r1, y :: r2 => if (cmp x y <=? 0)%Z then x :: merge cmp r1 l2 else y :: merge cmp l1 r2 end.
Proof. intros cmp [|x l1] [|y l2]; reflexivity. Qed.
Lemma merge_perm : forall cmp (l1 l2 : list V), Permutation (merge cmp l1 l2) (l1 ++ l2).
Proof.
  intros cmp. induction l1 as [|x l1 IH1]; intro l2; [rewrite merge_eq; apply Permutation_refl|].
  induction l2 as [|y l2 IH2]; [rewrite merge_eq, app_nil_r; apply Permutation_refl|].
  rewrite merge_eq. destruct (cmp x y <=? 0)%Z.
  - cbn. constructor. apply IH1.
  - rewrite IH2. change (y :: (x :: l1) ++ l2) with ([y] ++ (x :: l1) ++ l2). change ((x :: l1) ++ y :: l2) with ((x :: l1) ++ [y] ++ l2).
    rewrite !app_assoc. apply Permutation_app_tail. apply Permutation_app_comm.
Qed.
Lemma msort_perm : forall cmp f (l : list V), Permutation (msort f cmp l) l.
Proof.
  intros cmp. induction f as [|f IH]; intro l; [apply Permutation_refl|]. cbn [msort].
  destruct l as [|x [|y r]]; try apply Permutation_refl. set (l := x :: y :: r). cbv zeta. rewrite merge_perm, !IH, firstn_skipn. apply Permutation_refl.
Qed.
Hypothesis P1 : forall x y, pred x y = true -> R x y.
Hypothesis P2 : forall x y, pred x y = false -> R y x.
Hypothesis Tr : forall x y z, R x y -> R y z -> R x z.
Lemma merge_sorted : forall l1 l2, StronglySorted R l1 -> StronglySorted R l2 -> StronglySorted R (merge (compar pred) l1 l2).
Proof.
  induction l1 as [|x l1 IH1]; intros l2 S1 S2; [rewrite merge_eq; exact S2|].
  induction l2 as [|y l2 IH2]; [rewrite merge_eq; exact S1|].
  rewrite merge_eq. inversion_clear S1 as [|? ? S1' F1]. inversion_clear S2 as [|? ? S2' F2].
  destruct (Z.leb_spec (compar pred x y) 0) as [C|C]; unfold compar in C; destruct (pred x y) eqn:P; try lia.
  - constructor; [apply IH1; [exact S1'|constructor; assumption]|].
    eapply Permutation_Forall; [apply Permutation_sym, merge_perm|]. apply Forall_app. split; [exact F1|].
    constructor; [auto|]. eapply Forall_impl; [|exact F2]. intros z Hz. eapply Tr; [apply P1; exact P|exact Hz].
  - constructor; [apply IH2; exact S2'|].
    + eapply Permutation_Forall; [apply Permutation_sym, merge_perm|]. apply Forall_app. split; [|exact F2].
      constructor; [auto|]. eapply Forall_impl; [|exact F1]. intros z Hz. eapply Tr; [apply P2; exact P|exact Hz].
Qed.
Lemma msort_sorted : forall f l, length l <= f -> StronglySorted R (msort f (compar pred) l).
Proof.
  induction f as [|f IH]; intros l H; [destruct l; [constructor|cbn in H; lia]|]. cbn [msort].
  destruct l as [|x [|y r]]; [constructor|repeat constructor|]. set (l := x :: y :: r) in *. cbv zeta.
  assert (L : 2 <= length l) by (cbn; lia).
  assert (Hd : 1 <= length l / 2 < length l).
  { split; [apply (Nat.div_le_lower_bound (length l) 2 1); lia|apply Nat.div_lt; lia]. }
  apply merge_sorted; apply IH; [rewrite firstn_length|rewrite skipn_length]; lia.
Qed.
End Sorting.
Lemma qsort_ok : forall {V} (pred : V -> V -> bool) (R : V -> V -> Prop) l,
  (forall x y, pred x y = true -> R x y) -> (forall x y, pred x y = false -> R y x) -> (forall x y z, R x y -> R y z -> R x z) ->
  Permutation (qsort (compar pred) l) l /\ StronglySorted R (qsort (compar pred) l).
Proof. intros V pred R l P1 P2 Tr. split; [apply msort_perm|]. apply msort_sorted; auto. Qed.

Lemma SORT_list_ok : forall h v cells fuel pred key, is_list h v cells -> length cells <= fuel ->
  exists h', SORT_list fuel pred key h v = Ret (h', v) /\ is_list h' v cells /\ same_outside cells h h' /\
    elems h' cells = SORT_vec pred key (elems h cells).
Proof.
  intros h v cells fuel pred key L F. destruct (list_cases h v cells L) as [[-> ->]|[a [r [-> ->]]]].
  - exists h. cbn. repeat split; auto.
  - unfold SORT_list. rewrite (push_cars_ok (a :: r) fuel h (Ptr a) Nil []) by (cbn; auto). cbn [bind]. rewrite app_nil_r, rev_involutive.
    fold (SORT_vec pred key (elems h (a :: r))).
    destruct (write_cars_ok (a :: r) h (Ptr a) Nil (SORT_vec pred key (elems h (a :: r)))) as [h' [E [Cd [So El]]]]; auto.
    + eapply chain_nodup; eauto. exact Logic.I.
    + unfold SORT_vec, qsort. rewrite (Permutation_length (msort_perm _ _ _)). unfold elems. apply map_length.
    + rewrite E. cbn [bind]. exists h'. split; [reflexivity|]. split; [|split; [exact So|exact El]]. eapply chain_cdr_ext; [|exact L]. auto.
Qed.

(** ** NSUBSTITUTE, DELETE and replace on lists *)
Lemma advance_ok : forall i h cells v, is_list h v cells -> i <= length cells -> exists s, advance i h v = Ret s /\ chain h v (firstn i cells) s /\ is_list h s (skipn i cells).
Proof.
  induction i as [|i IH]; intros h cells v L H; [exists v; cbn; auto|]. destruct cells as [|a r]; [cbn in H; lia|].
  destruct L as [-> L]. cbn [advance]. destruct (IH h r (cdr h a) L ltac:(cbn in H; lia)) as [s [E [C1 C2]]]. exists s. split; [exact E|]. cbn. auto.
Qed.
Lemma nsubst_list_loop_ok : forall p a b new n c h seq rest k, is_list h seq rest -> NoDup rest -> n <= length rest -> a <= k ->
  (k + n = b \/ n = 0 /\ b <= k) ->
  exists h', nsubst_list_loop p new n c h seq = Ret h' /\ (forall x, cdr h' x = cdr h x) /\ same_outside rest h h' /\
    elems h' rest = replaced (sel p a b c k (elems h rest)) new k (elems h rest).
Proof.
  intros p a b new. induction n as [|n IH]; intros c h seq rest k L D Hn Ha Hb.
  - exists h. rewrite sel_high by lia. rewrite replaced_nil. repeat split; auto.
  - destruct c as [|c]; [exists h; change (sel p a b 0 k (elems h rest)) with (@nil nat); rewrite replaced_nil; repeat split; auto|].
    destruct rest as [|x r]; [cbn in Hn; lia|]. destruct L as [-> L]. inversion_clear D as [|? ? Nx D']. cbn [length] in Hn.
    destruct Hb as [Hb|Hb]; [|lia]. cbn [nsubst_list_loop]. change (elems h (x :: r)) with (car h x :: elems h r).
    destruct (p (car h x)) eqn:P; pose proof (in_range p a b k (car h x) ltac:(lia)) as R; rewrite P in R at 2.
    + destruct (set_car_facts h x new) as [S1 [S2 [S3 S4]]]. set (h1 := set_car h x new) in *. cbv zeta. rewrite S1.
      assert (Er : elems h1 r = elems h r). { apply elems_ext. intros y Hy. apply S2. intros ->. contradiction. }
      destruct (IH c h1 (cdr h x) r (S k)) as [h' [E [Cd [[Nn So] El]]]]; auto; try lia.
      { eapply chain_cdr_ext; [|exact L]. auto. }
      exists h'. split; [exact E|]. split; [intro y; rewrite Cd; apply S1|]. split; [split; [congruence|]|].
      * intros y Hy. cbn in Hy. rewrite So by tauto. apply S2. intros ->. tauto.
      * rewrite (replaced_hit p a b c k (car h x) (elems h r) (car h x) new (elems h r) R).
        change (elems h' (x :: r)) with (car h' x :: elems h' r). rewrite El, Er. f_equal. unfold car. rewrite So by exact Nx. exact S3.
    + destruct (IH (S c) h (cdr h x) r (S k)) as [h' [E [Cd [[Nn So] El]]]]; auto; try lia.
      exists h'. split; [exact E|]. split; [exact Cd|]. split; [split; [exact Nn|]|].
      * intros y Hy. cbn in Hy. apply So. tauto.
      * rewrite (replaced_miss p a b (S c) k (car h x) (elems h r) (car h x) new (elems h r) R).
        change (elems h' (x :: r)) with (car h' x :: elems h' r). rewrite El. f_equal. unfold car. rewrite So by exact Nx. reflexivity.
Qed.
Lemma skipn_NoDup : forall {A} n (l : list A), NoDup l -> NoDup (skipn n l).
Proof. induction n; intros [|x l] H; cbn; auto. inversion_clear H. auto. Qed.
Lemma skipn_In : forall {A} n (l : list A) x, In x (skipn n l) -> In x l.
Proof. induction n; intros [|y l] x H; cbn in *; auto. Qed.
Lemma NSUBSTITUTE_list_ok : forall (t : tests val) new h v cells s e c, is_list h v cells -> s <= length cells -> e <= length cells ->
  exists h', NSUBSTITUTE_list t new h v s e c = Ret (h', v) /\ is_list h' v cells /\ same_outside cells h h' /\
    elems h' cells = replaced (firstn c (selected (testresult t) s e (elems h cells))) new 0 (elems h cells).
Proof.
  intros t new h v cells s e c L Hs He. destruct (list_cases h v cells L) as [[-> ->]|[x0 [r0 [-> Ec]]]].
  - exists h. cbn. repeat split; auto.
  - unfold NSUBSTITUTE_list. destruct (advance_ok s h cells (Ptr x0) L Hs) as [q [E [C1 C2]]]. rewrite E. cbn [bind].
    assert (D : NoDup cells) by (eapply (chain_nodup h cells _ Nil Logic.I); exact L).
    destruct (nsubst_list_loop_ok (testresult t) s e new (e - s) c h q (skipn s cells) s C2 (skipn_NoDup s cells D)) as [h' [E2 [Cd [[Nn So] El]]]];
      [rewrite skipn_length; lia|lia|apply sub_cases|]. rewrite E2. cbn [bind].
    exists h'. split; [reflexivity|]. split; [eapply chain_cdr_ext; [|exact L]; auto|]. split; [split; [exact Nn|]|].
    + intros y Hy. apply So. intro Hi. apply Hy. eapply skipn_In; eauto.
    + unfold selected. fold (sel (testresult t) s e c 0 (elems h cells)).
      rewrite (replaced_pre (testresult t) s e s (elems h cells) (elems h cells) new c 0) by (auto; lia). cbn [plus].
      rewrite <- (firstn_skipn s cells) at 1. unfold elems at 1. rewrite map_app. fold (elems h' (skipn s cells)). rewrite El.
      unfold elems. rewrite <- !skipn_map, <- !firstn_map. f_equal. rewrite !firstn_map. apply map_ext_in. intros y Hy. unfold car. f_equal. apply So.
      rewrite <- (firstn_skipn s cells) in D. apply NoDup_app_inv in D. destruct D as [_ [_ D]]. apply D. exact Hy.
Qed.

Lemma delete_list_loop_ok : forall p a b n c rest h seq result pre l k,
  chain h result (pre ++ [l]) seq -> is_list h seq rest -> NoDup (pre ++ l :: rest) -> n <= length rest -> a <= k ->
  (k + n = b \/ n = 0 /\ b <= k) ->
  exists h', delete_list_loop p n c h seq result (Ptr l) false = Ret (h', result) /\
    is_list h' result (pre ++ l :: without (sel p a b c k (elems h rest)) k rest) /\ (forall x, car h' x = car h x) /\ same_outside (l :: rest) h h'.
Proof.
  intros p a b. induction n as [|n IH]; intros c rest h seq result pre l k C L D Hn Ha Hb.
  - exists h. rewrite sel_high by lia. rewrite without_nil. cbn. split; [reflexivity|]. split; [|split; [reflexivity|split; auto]].
    replace (pre ++ l :: rest) with ((pre ++ [l]) ++ rest) by (rewrite <- app_assoc; reflexivity). apply chain_app. eauto.
  - destruct c as [|c].
    { exists h. unfold sel. rewrite firstn_O, without_nil. cbn [delete_list_loop]. split; [reflexivity|]. split; [|split; [reflexivity|split; auto]].
      replace (pre ++ l :: rest) with ((pre ++ [l]) ++ rest) by (rewrite <- app_assoc; reflexivity). apply chain_app. eauto. }
    destruct rest as [|x r]; [cbn in Hn; lia|]. destruct L as [-> L]. cbn [length] in Hn. destruct Hb as [Hb|Hb]; [|lia].
    cbn [delete_list_loop]. change (elems h (x :: r)) with (car h x :: elems h r).
    
    assert (Dl : ~ In l pre /\ l <> x /\ ~ In l r /\ ~ In x r /\ NoDup (pre ++ l :: r) /\ ~ In x pre).
    { apply NoDup_app_inv in D. destruct D as [D1 [D2 D3]]. inversion_clear D2 as [|? ? N1 N2]. inversion_clear N2 as [|? ? N3 N4].
      split; [intro H; apply (D3 l H); left; reflexivity|]. split; [intros ->; apply N1; left; reflexivity|].
      split; [intro H; apply N1; right; exact H|]. split; [exact N3|]. split.
      - apply NoDup_app_intro; [exact D1|constructor; [intro H; apply N1; right; exact H|exact N4]|]. intros y Hy [Hl|Hr]; apply (D3 y Hy); [left; exact Hl|right; right; exact Hr].
      - intro H. apply (D3 x H). right. left. reflexivity. }
    destruct Dl as [D1 [D2 [D3 [D4 [D5 D6]]]]].
    destruct (p (car h x)) eqn:P; pose proof (in_range p a b k (car h x) ltac:(lia)) as R; rewrite P in R at 2.
    + destruct (set_cdr_facts h l (cdr h x)) as [S1 [S2 [S3 S4]]]. set (h1 := set_cdr h l (cdr h x)) in *. cbv zeta.
      assert (Ex : cdr h1 x = cdr h x) by (unfold cdr; rewrite S2 by congruence; reflexivity). rewrite Ex.
      assert (Er : elems h1 r = elems h r) by (apply map_ext; exact S1).
      destruct (IH c r h1 (cdr h x) result pre l (S k)) as [h' [E [L' [Cr [Nn So]]]]]; auto; try lia.
      { apply chain_app in C. destruct C as [m [Ca [Cb _]]]. apply chain_app. exists m. split.
        - eapply chain_ext; [|exact Ca]. intros y Hy. apply S2. intros ->. contradiction.
        - split; [exact Cb|]. exact S3. }
      { eapply chain_ext; [|exact L]. intros y Hy. apply S2. intros ->. contradiction. }
      exists h'. split; [exact E|]. rewrite (without_hit p a b c k (car h x) (elems h r) x r R). rewrite Er in L'.
      split; [exact L'|]. split; [intro y; rewrite Cr; apply S1|]. split; [congruence|]. intros y Hy. cbn in Hy. rewrite So by (cbn; tauto). apply S2. intros ->. tauto.
    + destruct (IH (S c) r h (cdr h x) result (pre ++ [l]) x (S k)) as [h' [E [L' [Cr [Nn So]]]]]; auto; try lia.
      { apply chain_app. exists (Ptr x). split; [exact C|]. cbn. auto. }
      { rewrite <- app_assoc. exact D. }
      exists h'. split; [exact E|]. rewrite (without_miss p a b (S c) k (car h x) (elems h r) x r R). rewrite <- app_assoc in L'. cbn [app] in L'.
      split; [exact L'|]. split; [exact Cr|]. split; [exact Nn|]. intros y Hy. apply So. cbn in Hy |- *. tauto.
Qed.
Lemma delete_first_ok : forall p b n c rest h seq lastseq k, is_list h seq rest -> n <= length rest -> (k + n = b \/ n = 0 /\ b <= k) ->
  exists h' r, delete_list_loop p n c h seq seq lastseq true = Ret (h', r) /\
    is_list h' r (without (sel p 0 b c k (elems h rest)) k rest) /\ (forall x, car h' x = car h x) /\ same_outside rest h h'.
Proof.
  intros p b. induction n as [|n IH]; intros c rest h seq lastseq k L Hn Hb.
  - exists h, seq. rewrite sel_high by lia. rewrite without_nil. split; [reflexivity|]. split; [exact L|]. split; [reflexivity|split; auto].
  - destruct c as [|c]; [exists h, seq; unfold sel; rewrite firstn_O, without_nil; cbn [delete_list_loop]; split; [reflexivity|]; split; [exact L|]; split; [reflexivity|split; auto]|].
    assert (D : NoDup rest) by (eapply (chain_nodup h rest _ Nil Logic.I); exact L).
    destruct rest as [|x r]; [cbn in Hn; lia|]. destruct L as [-> L]. cbn [length] in Hn. destruct Hb as [Hb|Hb]; [|lia].
    cbn [delete_list_loop]. change (elems h (x :: r)) with (car h x :: elems h r).
    destruct (p (car h x)) eqn:P; pose proof (in_range p 0 b k (car h x) ltac:(lia)) as R; rewrite P in R at 2.
    + destruct (IH c r h (cdr h x) lastseq (S k)) as [h' [q [E [L' [Cr [Nn So]]]]]]; auto; try lia.
      exists h', q. split; [exact E|]. rewrite (without_hit p 0 b c k (car h x) (elems h r) x r R). split; [exact L'|]. split; [exact Cr|].
      split; [exact Nn|]. intros y Hy. apply So. cbn in Hy. tauto.
    + destruct (delete_list_loop_ok p 0 b n (S c) r h (cdr h x) (Ptr x) [] x (S k)) as [h' [E [L' [Cr So]]]]; auto; try lia.
      { cbn. auto. }
      exists h', (Ptr x). split; [exact E|]. rewrite (without_miss p 0 b (S c) k (car h x) (elems h r) x r R). auto.
Qed.
Lemma without_map : forall {A B} (f : A -> B) s k l, map f (without s k l) = without s k (map f l).
Proof. intros A B f s k l. revert k. induction l as [|x r IH]; intro k; cbn; [reflexivity|]. destruct (existsb (Nat.eqb k) s); cbn; rewrite IH; reflexivity. Qed.
Lemma DELETE_list_ok : forall (t : tests val) h v cells s e c, is_list h v cells -> s <= length cells -> e <= length cells ->
  (s = 0 \/ forall x, nth_error (elems h cells) s = Some x -> testresult t x = false) ->
  let gone := firstn c (selected (testresult t) s e (elems h cells)) in
  exists h' r, DELETE_list t h v s e c = Ret (h', r) /\ is_list h' r (without gone 0 cells) /\
    elems h' (without gone 0 cells) = without gone 0 (elems h cells) /\ same_outside cells h h'.
Proof.
  intros t h v cells s e c L Hs He Hf gone. 
  assert (X : exists h' r, DELETE_list t h v s e c = Ret (h', r) /\ is_list h' r (without gone 0 cells) /\ (forall x, car h' x = car h x) /\ same_outside cells h h').
  { destruct (list_cases h v cells L) as [[-> ->]|[x0 [r0 [-> Ec]]]].
    - exists h, Nil. cbn. repeat split; auto.
    - unfold DELETE_list. destruct (advance_ok s h cells (Ptr x0) L Hs) as [q [E [C1 C2]]]. rewrite E. cbn [bind].
      unfold gone, selected. fold (sel (testresult t) s e c 0 (elems h cells)). destruct (Nat.eqb_spec s 0) as [->|Ns].
      + cbn in E. injection E as <-. apply (delete_first_ok (testresult t) e (e - 0) c cells h (Ptr x0) (Ptr x0) 0); auto; lia.
      + destruct Hf as [Hf|Hf]; [contradiction|].
        rewrite (without_pre (testresult t) s e s (elems h cells) cells c 0) by (unfold elems; rewrite ?map_length; lia). cbn [plus].
        unfold elems. rewrite skipn_map. fold (elems h (skipn s cells)).
        assert (D : NoDup (firstn s cells ++ skipn s cells)) by (rewrite firstn_skipn; eapply (chain_nodup h cells _ Nil Logic.I); exact L).
        assert (Stop : forall n, n = e - s -> (n = 0 \/ c = 0) -> delete_list_loop (testresult t) n c h q (Ptr x0) q false = Ret (h, Ptr x0) /\
                  without (sel (testresult t) s e c s (elems h (skipn s cells))) s (skipn s cells) = skipn s cells).
        { intros n En [H0|H0].
          - subst n. rewrite H0. split; [reflexivity|]. rewrite sel_high by lia. apply without_nil.
          - rewrite H0. split; [destruct n; reflexivity|]. unfold sel. rewrite firstn_O. apply without_nil. }
        destruct (e - s) as [|n] eqn:En.
        * destruct (Stop 0 eq_refl (or_introl eq_refl)) as [E1 E2]. rewrite E1, E2, firstn_skipn. exists h, (Ptr x0). split; [reflexivity|]. split; [exact L|]. split; [reflexivity|split; auto].
        * destruct c as [|c].
          { destruct (Stop (S n) eq_refl (or_intror eq_refl)) as [E1 E2]. rewrite E1, E2, firstn_skipn. exists h, (Ptr x0). split; [reflexivity|]. split; [exact L|]. split; [reflexivity|split; auto]. }
          destruct (skipn s cells) as [|x r] eqn:Sk; [apply (f_equal (@length nat)) in Sk; rewrite skipn_length in Sk; cbn in Sk; lia|].
          destruct C2 as [-> C2]. cbn [delete_list_loop].
          assert (Px : testresult t (car h x) = false).
          { apply Hf. unfold elems. rewrite <- (nth_error_skipn' _ s s) by lia. rewrite skipn_map, Sk, Nat.sub_diag. reflexivity. }
          rewrite Px. change (elems h (x :: r)) with (car h x :: elems h r).
          assert (Ln : S (length r) = length cells - s) by (apply (f_equal (@length nat)) in Sk; rewrite skipn_length in Sk; cbn in Sk; lia).
          rewrite (without_miss (testresult t) s e (S c) s (car h x) (elems h r) x r) by (rewrite in_range by lia; exact Px).
          destruct (delete_list_loop_ok (testresult t) s e n (S c) r h (cdr h x) (Ptr x0) (firstn s cells) x (S s)) as [h' [E2 [L' [Cr [Nn So]]]]]; auto; try lia.
          { apply chain_app. exists (Ptr x). cbn. auto. }
          exists h', (Ptr x0). split; [exact E2|]. split; [exact L'|]. split; [exact Cr|]. split; [exact Nn|].
          intros y Hy. apply So. rewrite <- Sk. intro Hi. apply Hy. eapply skipn_In; eauto. }
  destruct X as [h' [r [E [L' [Cr So]]]]]. exists h', r. split; [exact E|]. split; [exact L'|]. split; [|exact So].
  unfold elems at 1. rewrite (map_ext (car h') (car h) Cr). apply without_map.
Qed.

Lemma replace_loop_ok : forall n h dest src D S, chain h dest D (skip (length D) h dest) -> is_list h src S -> length D = n -> n <= length S -> NoDup D ->
  (forall i j x, i < j -> j < n -> nth_error D i = Some x -> nth_error S j <> Some x) ->
  exists h', replace_loop n h dest src = Ret h' /\ (forall x, cdr h' x = cdr h x) /\ same_outside D h h' /\ elems h' D = elems h (firstn n S).
Proof.
  induction n as [|n IH]; intros h dest src D S CD CS Ln LS ND Ho.
  - destruct D; [|discriminate]. exists h. repeat split; auto.
  - destruct D as [|d D]; [discriminate|]. destruct S as [|s S]; [cbn in LS; lia|]. destruct CD as [-> CD]. destruct CS as [-> CS].
    cbn [replace_loop]. destruct (set_car_facts h d (car h s)) as [S1 [S2 [S3 S4]]]. set (h1 := set_car h d (car h s)) in *. cbv zeta. rewrite S1.
    inversion_clear ND as [|? ? Nd ND']. injection Ln as Ln. cbn [length] in LS.
    assert (Sk : forall m v, skip m h1 v = skip m h v).
    { induction m as [|m IHm]; intros [|y|y]; cbn; auto. rewrite S1. apply IHm. }
    destruct (IH h1 (cdr h d) (cdr h s) D S) as [h' [E [Cd [[Nn So] El]]]]; auto; try lia.
    + rewrite Sk. eapply chain_cdr_ext; [|exact CD]. auto.
    + eapply chain_cdr_ext; [|exact CS]. auto.
    + intros i j x Hij Hj Hi. apply (Ho (Datatypes.S i) (Datatypes.S j) x); [lia|lia|exact Hi].
    + exists h'. split; [exact E|]. split; [intro x; rewrite Cd; apply S1|]. split; [split; [congruence|]|].
      * intros x Hx. cbn in Hx. rewrite So by tauto. apply S2. intros ->. tauto.
      * change (elems h' (d :: D)) with (car h' d :: elems h' D). rewrite El. cbn [firstn].
        change (elems h (s :: firstn n S)) with (car h s :: elems h (firstn n S)). f_equal.
        -- unfold car at 1. rewrite So by exact Nd. exact S3.
        -- apply elems_ext. intros x Hx. apply S2. intros ->. apply In_nth_error in Hx. destruct Hx as [j Hj].
           assert (Hjn : j < n). { destruct (Nat.lt_ge_cases j n); [assumption|]. assert (nth_error (firstn n S) j = None) by (apply nth_error_None; rewrite firstn_length; lia). congruence. }
           rewrite nth_error_firstn in Hj by exact Hjn. apply (Ho 0 (Datatypes.S j) d); [lia|lia|reflexivity|exact Hj].
Qed.
Lemma replace_list_ok : forall h dest src C1 C2 s1 e1 s2 e2, is_list h dest C1 -> is_list h src C2 ->
  s1 <= e1 <= length C1 -> s2 <= e2 <= length C2 -> (Z.of_nat (length C1) < 2147483648)%Z -> (Z.of_nat (length C2) < 2147483648)%Z ->
  let n := Nat.min (e1 - s1) (e2 - s2) in
  let D := firstn n (skipn s1 C1) in let S := firstn n (skipn s2 C2) in
  (forall i j x, i < j -> nth_error D i = Some x -> nth_error S j <> Some x) ->
  exists h', replace_list h dest src s1 e1 s2 e2 = Ret (h', dest) /\ is_list h' dest C1 /\ is_list h' src C2 /\ same_outside D h h' /\ elems h' D = elems h S.
Proof.
  intros h dest src C1 C2 s1 e1 s2 e2 L1 L2 H1 H2 B1 B2 n D S Ho. unfold replace_list.
  destruct (NTHCDR_ok h dest C1 (Z.of_nat s1) L1 ltac:(lia)) as [d [Ed Ld]]. rewrite Nat2Z.id in Ld. rewrite Ed. cbn [bind].
  destruct (NTHCDR_ok h src C2 (Z.of_nat s2) L2 ltac:(lia)) as [s [Es Ls]]. rewrite Nat2Z.id in Ls. rewrite Es. cbn [bind]. fold n.
  assert (LD : length D = n) by (unfold D; rewrite firstn_length, skipn_length; lia).
  assert (ND : NoDup D). { pose proof (chain_nodup h _ _ Nil Logic.I Ld) as X. rewrite <- (firstn_skipn n (skipn s1 C1)) in X. apply NoDup_app_inv in X. apply X. }
  assert (CD : chain h d D (skip (length D) h d)).
  { unfold is_list in Ld. rewrite <- (firstn_skipn n (skipn s1 C1)) in Ld. apply chain_app in Ld. destruct Ld as [m [Ca Cb]]. fold D in Ca.
    assert (Em : skip (length D) h d = m). { clear -Ca. revert d Ca. induction D as [|x D IH]; intros d Ca; cbn in *; [exact Ca|]. destruct Ca as [-> Ca]. apply IH. exact Ca. }
    rewrite Em. exact Ca. }
  destruct (replace_loop_ok n h d s D (skipn s2 C2) CD Ls LD) as [h' [E [Cd [So El]]]]; auto.
  - rewrite skipn_length. lia.
  - intros i j x Hij Hj Hi Hsj. apply (Ho i j x Hij Hi). unfold S. rewrite nth_error_firstn by exact Hj. exact Hsj.
  - rewrite E. cbn [bind]. exists h'. split; [reflexivity|]. split; [eapply chain_cdr_ext; [|exact L1]; auto|]. split; [eapply chain_cdr_ext; [|exact L2]; auto|]. auto.
Qed.

(** ** merge-list, where no element of list2 comes after all of list1 *)
Section MergeListProofs.
Context {V : Type} (nil : V) (pred : V -> V -> bool) (R : V -> V -> Prop).
Hypothesis P1 : forall x y, pred x y = true -> R x y.
Hypothesis P2 : forall x y, pred x y = false -> R y x.
Hypothesis Tr : forall x y z, R x y -> R y z -> R x z.
Definition pred' (x y : V) : option bool := Some (pred x y).
Lemma ml_front_ok : forall x1 l2 acc, exists f b, ml_front pred' x1 l2 acc = Ret (rev acc ++ f, b) /\ l2 = f ++ b /\
  Forall (fun y => R y x1) f /\ match b with [] => True | y :: _ => pred x1 y = true end.
Proof.
  induction l2 as [|y r IH]; intro acc; cbn [ml_front].
  - exists [], []. rewrite app_nil_r. repeat split; auto.
  - unfold pred' at 1. destruct (pred x1 y) eqn:E.
    + exists [], (y :: r). rewrite app_nil_r. repeat split; auto.
    + destruct (IH (y :: acc)) as [f [b [E1 [E2 [E3 E4]]]]]. exists (y :: f), b. cbn [rev] in E1. rewrite <- app_assoc in E1.
      split; [exact E1|]. split; [cbn; congruence|]. split; [constructor; auto|exact E4].
Qed.
Lemma ml_inner_ok : forall rest linked x e2, rest <> [] -> pred (last rest nil) e2 = false ->
  exists a x1 b, ml_inner nil pred' linked x rest e2 = Ret (rev a ++ linked, Some (x1, b)) /\ x :: rest = a ++ x1 :: b /\ b <> [] /\ last b nil = last rest nil /\
    (a <> [] -> pred x1 e2 = true) /\ pred (hd nil b) e2 = false.
Proof.
  induction rest as [|y r IH]; intros linked x e2 N H; [contradiction|]. cbn [ml_inner hd]. unfold pred' at 1. destruct (pred y e2) eqn:E.
  - assert (Nr : r <> []) by (intros ->; cbn in H; congruence).
    assert (Hl : last (y :: r) nil = last r nil) by (destruct r; [contradiction|reflexivity]). rewrite Hl in *.
    destruct (IH (x :: linked) y e2 Nr H) as [a [x1 [b [E1 [E2 [E3 [E4 [E5 E6]]]]]]]]. exists (x :: a), x1, b. cbn [rev]. rewrite <- app_assoc. cbn [app].
    split; [exact E1|]. split; [f_equal; exact E2|]. split; [exact E3|]. split; [exact E4|]. split; [|exact E6].
    intros _. destruct a as [|a0 a]; [cbn in E2; injection E2 as <- _; exact E|apply E5; discriminate].
  - exists [], x, (y :: r). cbn [rev app]. repeat split; auto; try discriminate.
Qed.
Lemma SS_app : forall l1 l2 : list V, StronglySorted R (l1 ++ l2) <-> StronglySorted R l1 /\ StronglySorted R l2 /\ (forall x y, In x l1 -> In y l2 -> R x y).
Proof.
  induction l1 as [|a l1 IH]; intro l2; cbn.
  - split; [intro H; split; [constructor|split; [exact H|contradiction]]|tauto].
  - split.
    + intro H. inversion_clear H as [|? ? H1 H2]. apply IH in H1. destruct H1 as [S1 [S2 S3]]. apply Forall_app in H2. destruct H2 as [F1 F2].
      split; [constructor; assumption|]. split; [exact S2|]. intros x y [<-|Hx] Hy; [rewrite Forall_forall in F2; auto|auto].
    + intros [S1 [S2 S3]]. inversion_clear S1 as [|? ? S1' F1]. constructor; [apply IH; auto|]. apply Forall_app. split; [exact F1|]. apply Forall_forall. auto.
Qed.
Lemma ml_outer_ok : forall l2 linked x rest, StronglySorted R (rev linked ++ x :: rest) -> StronglySorted R l2 ->
  (rest = [] -> l2 = []) -> Forall (fun y => pred (last rest nil) y = false) l2 -> Forall (R x) l2 -> (forall z, In z linked -> R z x) ->
  exists r, ml_outer nil pred' linked x rest l2 = Ret r /\ Permutation r (rev linked ++ x :: rest ++ l2) /\ StronglySorted R r /\ (forall z, Forall (R z) (rev linked ++ x :: rest ++ l2) -> Forall (R z) r).
Proof.
  induction l2 as [|e2 l2 IH]; intros linked x rest S1 S2 N F Fx Hl.
  - exists (rev (x :: linked) ++ rest ++ []). assert (E : rev (x :: linked) ++ rest ++ [] = rev linked ++ x :: rest) by (rewrite app_nil_r; cbn; rewrite <- app_assoc; reflexivity).
    split; [destruct rest; reflexivity|]. rewrite E, app_nil_r. split; [apply Permutation_refl|]. split; [exact S1|auto].
  - destruct rest as [|y0 r0]; [discriminate (N eq_refl)|]. cbn [ml_outer]. inversion_clear F as [|? ? F1 F2]. inversion_clear Fx as [|? ? G1 G2]. inversion_clear S2 as [|? ? S2' S2f].
    destruct (ml_inner_ok (y0 :: r0) linked x e2 ltac:(discriminate) F1) as [a [x1 [b [E1 [E2 [E3 [E4 [E5 E6]]]]]]]].
    rewrite E1. cbn [bind].
    assert (Rx1 : R x1 e2). { destruct a as [|a0 a]; [cbn in E2; injection E2 as <- _; exact G1|apply P1, E5; discriminate]. }
    pose proof S1 as S1c. rewrite E2 in S1c. replace (rev linked ++ a ++ x1 :: b) with ((rev linked ++ a ++ [x1]) ++ b) in S1c by (rewrite <- !app_assoc; reflexivity).
    apply SS_app in S1c. destruct S1c as [Sa [Sb Sc]].
    assert (Le2 : forall z, In z (rev linked ++ a ++ [x1]) -> R z e2).
    { intros z Hz. rewrite app_assoc in Sa. apply SS_app in Sa. destruct Sa as [_ [_ Sd]]. rewrite app_assoc in Hz. apply in_app_iff in Hz. destruct Hz as [Hz|Hz].
      - eapply Tr; [apply Sd; [exact Hz|left; reflexivity]|exact Rx1].
      - destruct Hz as [<-|[]]. exact Rx1. }
    assert (Gb : Forall (R e2) b). { destruct b as [|b0 b]; [contradiction|]. cbn in E6. apply P2 in E6. constructor; [exact E6|]. inversion_clear Sb as [|? ? _ Q]. eapply Forall_impl; [|exact Q]. intros z Hz. eapply Tr; eauto. }
    assert (Eq : rev (x1 :: rev a ++ linked) = rev linked ++ a ++ [x1]) by (cbn; rewrite rev_app_distr, rev_involutive, <- app_assoc; reflexivity).
    destruct (IH (x1 :: rev a ++ linked) e2 b) as [r [Er [Pr [Sr Gr]]]].
    + rewrite Eq. apply SS_app. split; [exact Sa|]. split; [constructor; assumption|]. intros u w Hu [<-|Hw]; [apply Le2; exact Hu|apply Sc; assumption].
    + exact S2'.
    + intro Z. contradiction.
    + rewrite E4. exact F2.
    + exact S2f.
    + intros z Hz. apply Le2. rewrite <- Eq. apply -> in_rev. exact Hz.
    + exists r. split; [exact Er|].
      assert (PP : Permutation (rev (x1 :: rev a ++ linked) ++ e2 :: b ++ l2) (rev linked ++ x :: (y0 :: r0) ++ e2 :: l2)).
      { rewrite Eq. change (x :: (y0 :: r0) ++ e2 :: l2) with ((x :: y0 :: r0) ++ e2 :: l2). rewrite E2. rewrite <- !app_assoc. cbn [app]. apply Permutation_app_head, Permutation_app_head. constructor.
        change (e2 :: b ++ l2) with ([e2] ++ b ++ l2). change (b ++ e2 :: l2) with (b ++ [e2] ++ l2). rewrite !app_assoc. apply Permutation_app_tail, Permutation_app_comm. }
      split; [eapply Permutation_trans; [exact Pr|exact PP]|]. split; [exact Sr|]. intros z Hz. apply Gr. eapply Permutation_Forall; [apply Permutation_sym, PP|exact Hz].
Qed.
Lemma merge_list_ok : forall l1 l2, l1 <> [] -> StronglySorted R l1 -> StronglySorted R l2 ->
  (forall y, In y l2 -> pred (last l1 nil) y = false) ->
  exists r, merge_list nil pred' l1 l2 = Ret r /\ Permutation r (l1 ++ l2) /\ StronglySorted R r.
Proof.
  intros l1 l2 N S1 S2 F. destruct l1 as [|x rest]; [contradiction|]. unfold merge_list. cbn [hd].
  destruct (ml_front_ok x l2 []) as [f [b [E1 [E2 [E3 E4]]]]]. rewrite E1. cbn [rev app bind]. subst l2.
  apply SS_app in S2. destruct S2 as [Sf [Sb Sfb]].
  assert (Fb : Forall (R x) b). { destruct b as [|y b]; [constructor|]. apply P1 in E4. constructor; [exact E4|]. inversion_clear Sb as [|? ? _ Q]. eapply Forall_impl; [|exact Q]. intros z Hz. eapply Tr; eauto. }
  destruct (ml_outer_ok b [] x rest) as [r [Er [Pr [Sr Gr]]]]; auto.
  - intros ->. destruct b as [|y b]; [reflexivity|]. cbn in F. specialize (F y ltac:(apply in_app_iff; right; left; reflexivity)). congruence.
  - apply Forall_forall. intros y Hy. destruct rest as [|y0 r0].
    + destruct b as [|y1 b]; [contradiction|]. cbn in F. specialize (F y1 ltac:(apply in_app_iff; right; left; reflexivity)). congruence.
    + apply (F y). apply in_app_iff. right. exact Hy.
  - rewrite Er. cbn [bind]. exists (f ++ r). split; [reflexivity|]. cbn [rev app] in Pr. split.
    + rewrite Pr. change (x :: rest ++ b) with ((x :: rest) ++ b). rewrite app_assoc. rewrite (Permutation_app_comm f (x :: rest)). rewrite <- app_assoc. apply Permutation_refl.
    + apply SS_app. split; [exact Sf|]. split; [exact Sr|]. intros u w Hu Hw. apply (Permutation_in _ Pr) in Hw.
      rewrite Forall_forall in E3. change (x :: rest ++ b) with ((x :: rest) ++ b) in Hw. apply in_app_iff in Hw. destruct Hw as [[<-|Hw]|Hw]; [auto| |auto].
      inversion_clear S1 as [|? ? _ Q]. rewrite Forall_forall in Q. eapply Tr; [apply E3; exact Hu|apply Q; exact Hw].
Qed.
End MergeListProofs.
