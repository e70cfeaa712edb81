(** The editor against the text around the cursor, the array of the history against the list of commands. *)
From Coq Require Import ZArith List Bool Arith Lia.
From Verif Require Import HistModel HistSpec.
Import ListNotations.
Open Scope nat_scope.

Lemma firstn_snoc (l : list nat) i : i < length l -> firstn (S i) l = firstn i l ++ [nth i l 0].
Proof. revert i. induction l as [|x l IH]; intros [|i] L; cbn in *; try lia; [reflexivity|]. f_equal. apply IH. lia. Qed.
Lemma write_from_spec str : forall count i, i + count <= length str -> write_from str i count (Scr (firstn i str) i) = Scr (firstn (i + count) str) (i + count).
Proof.
  induction count as [|n IH]; intros i L; cbn [write_from]; [rewrite Nat.add_0_r; reflexivity|].
  assert (Lf : length (firstn i str) = i) by (rewrite firstn_length; lia).
  assert (put (nth i str 0) (Scr (firstn i str) i) = Scr (firstn (S i) str) (S i)) as ->.
  { unfold put. cbn [row cur]. rewrite firstn_firstn, Nat.min_id, Lf, Nat.sub_diag. cbn [repeat app]. rewrite (skipn_all2 (n := S i)) by lia.
    rewrite firstn_snoc by lia. reflexivity. }
  rewrite IH by lia. replace (S i + n) with (i + S n) by lia. reflexivity.
Qed.
Lemma refresh_spec l i s : i <= length l -> firstn i (row s) = firstn i l -> refresh_line l i (length l) s = Scr l i.
Proof.
  intros L E. unfold refresh_line, erase_eol, cursor_pos. cbn [row cur]. rewrite E, write_from_spec by lia. cbn [row].
  f_equal. apply firstn_all2. lia.
Qed.
Lemma firstn_app_exact (b a : list nat) : firstn (length b) (b ++ a) = b.
Proof. rewrite firstn_app, Nat.sub_diag, firstn_O, app_nil_r, firstn_all. reflexivity. Qed.
Lemma skipn_app_exact (b a : list nat) : skipn (length b) (b ++ a) = a.
Proof. rewrite skipn_app, Nat.sub_diag, skipn_all. reflexivity. Qed.
Lemma list_delete_spec b x a : list_delete (b ++ x :: a) (length b) = b ++ a.
Proof.
  unfold list_delete. destruct (Nat.eqb_spec (length b) 0) as [E | Ne]; [destruct b; [reflexivity | discriminate]|].
  rewrite firstn_app_exact. f_equal. change (x :: a) with ([x] ++ a). rewrite app_assoc.
  replace (S (length b)) with (length (b ++ [x])) by (rewrite app_length; cbn; lia). apply skipn_app_exact.
Qed.
Lemma list_insert_spec b c a : list_insert c (length b) (b ++ a) = b ++ c :: a.
Proof.
  unfold list_insert. destruct (b ++ a) as [|y l] eqn:E; [apply app_eq_nil in E; destruct E as [-> ->]; reflexivity|]. rewrite <- E. clear y l E.
  rewrite app_length. destruct (Nat.leb_spec (length b + length a) (length b)).
  - destruct a; [rewrite app_nil_r; reflexivity | cbn in *; lia].
  - destruct (Nat.eqb_spec (length b) 0) as [Eb | Ne]; [destruct b; [reflexivity | discriminate]|]. rewrite firstn_app_exact, skipn_app_exact. reflexivity.
Qed.

Definition at_ (b a : list nat) : edit := Edit (b ++ a) (length b) (length (b ++ a)) (Scr (b ++ a) (length b)).
Lemma refresh_at b a old : refresh_line (b ++ a) (length b) (length (b ++ a)) (Scr (b ++ old) (cur (scr (at_ b old)))) = Scr (b ++ a) (length b).
Proof. apply refresh_spec; [rewrite app_length; lia|]. cbn [row]. rewrite !firstn_app_exact. reflexivity. Qed.

Lemma delprev_at b x a : line_delch_previous (at_ (b ++ [x]) a) = at_ b a.
Proof.
  unfold line_delch_previous, at_. cbn [index line stop scr]. rewrite <- app_assoc. cbn [app].
  replace (length (b ++ [x])) with (S (length b)) by (rewrite app_length; cbn; lia). cbn [Nat.ltb Nat.leb pred]. cbv zeta.
  rewrite list_delete_spec. replace (pred (length (b ++ x :: a))) with (length (b ++ a)) by (rewrite !app_length; cbn; lia).
  rewrite refresh_spec; [reflexivity | rewrite app_length; lia|]. cbn [row]. rewrite !firstn_app_exact. reflexivity.
Qed.
Lemma delnext_at b x a : line_delch (at_ b (x :: a)) = at_ b a.
Proof.
  unfold line_delch, at_. cbn [index line stop scr]. destruct (Nat.ltb_spec (length b) (length (b ++ x :: a))) as [_ | H]; [|rewrite app_length in H; cbn in H; lia].
  rewrite list_delete_spec. replace (pred (length (b ++ x :: a))) with (length (b ++ a)) by (rewrite !app_length; cbn; lia).
  rewrite refresh_spec; [reflexivity | rewrite app_length; lia|]. cbn [row]. rewrite !firstn_app_exact. reflexivity.
Qed.
Lemma insert_at b c a : line_insert c (at_ b a) = at_ (b ++ [c]) a.
Proof.
  unfold line_insert, at_. cbn [index line stop scr]. rewrite list_insert_spec.
  replace (S (length (b ++ a))) with (length (b ++ c :: a)) by (rewrite !app_length; cbn; lia).
  rewrite refresh_spec; [|rewrite app_length; lia | cbn [row]; rewrite !firstn_app_exact; reflexivity].
  unfold cursor_forward. cbn [row cur]. rewrite <- app_assoc. cbn [app]. rewrite (app_length b [c]). cbn [length]. rewrite Nat.add_1_r. reflexivity.
Qed.
Lemma step_at k c b a b' a' : key k c -> does c (b, a) (b', a') -> k < 128 /\ dispatch k (at_ b a) = Go (at_ b' a').
Proof.
  intros K D. split; [destruct K as [K | [K | [K | [K | [K | [K | [K | [K | K]]]]]]]]; lia|].
  destruct K as [[-> ->] | [[K ->] | [[-> ->] | [[K ->] | [[-> ->] | [[-> ->] | [[-> ->] | [[K ->] | [[K N] ->]]]]]]]]].
  - cbn [dispatch]. inversion D; subst. reflexivity.
  - assert (dispatch k (at_ b a) = Go (line_left (at_ b a))) as -> by (destruct K as [-> | ->]; reflexivity). f_equal.
    inversion D; subst; [|reflexivity]. unfold line_left, at_. cbn [line index stop scr]. rewrite <- app_assoc. cbn [app].
    rewrite (app_length b' [x]). cbn [length]. rewrite Nat.add_1_r. reflexivity.
  - cbn [dispatch]. f_equal. inversion D; subst; [apply delnext_at|]. unfold line_delch, at_. cbn [line index stop scr]. rewrite app_nil_r, Nat.ltb_irrefl. reflexivity.
  - assert (dispatch k (at_ b a) = Go (line_right (at_ b a))) as -> by (destruct K as [-> | ->]; reflexivity). f_equal.
    inversion D; subst; unfold line_right, at_; cbn [line index stop scr].
    + destruct (Nat.ltb_spec (length b) (length (b ++ x :: a'))) as [_ | H]; [|rewrite app_length in H; cbn in H; lia].
      rewrite <- app_assoc. cbn [app]. rewrite (app_length b [x]). cbn [length]. rewrite Nat.add_1_r. reflexivity.
    + rewrite app_nil_r, Nat.ltb_irrefl. reflexivity.
  - cbn [dispatch]. inversion D; subst. unfold line_tail, at_, cursor_pos. cbn [line index stop scr row]. rewrite !app_nil_r. reflexivity.
  - cbn [dispatch]. inversion D; subst. reflexivity.
  - cbn [dispatch]. f_equal. inversion D; subst; [apply delprev_at | reflexivity].
  - inversion D; subst. rewrite <- insert_at. do 32 (destruct k as [|k]; [lia|]).
    do 95 (destruct k as [|k]; [reflexivity|]). lia.
  - inversion D; subst. do 32 (destruct k as [|k]; [try reflexivity; exfalso; apply N; cbn; tauto|]). lia.
Qed.
Lemma keys_app ks ks' e e' : keys_loop ks e = Waiting e' -> keys_loop (ks ++ ks') e = keys_loop ks' e'.
Proof.
  revert e. induction ks as [|k ks IH]; intros e E; cbn [keys_loop app] in *; [injection E as ->; reflexivity|].
  destruct (k <? 128); [|discriminate]. destruct (dispatch k e) as [e1 | [|]]; [apply IH; exact E | discriminate | discriminate].
Qed.
Lemma edits_keys ks p q : edits ks p q -> keys_loop ks (at_ (fst p) (snd p)) = Waiting (at_ (fst q) (snd q)).
Proof.
  intros H. induction H as [p | k c ks [b a] [b' a'] r K D H IH]; [reflexivity|]. destruct (step_at k c b a b' a' K D) as [L E].
  cbn [keys_loop fst snd]. destruct (Nat.ltb_spec k 128); [|lia]. rewrite E. exact IH.
Qed.
Lemma snoc_cases (l : list nat) : l = [] \/ exists b x, l = b ++ [x].
Proof. destruct l as [|y l] using rev_ind; [left; reflexivity | right; eauto]. Qed.
Lemma does_total c b a : exists q, does c (b, a) q.
Proof.
  destruct c.
  - eexists; constructor.
  - destruct (snoc_cases b) as [-> | (b0 & x & ->)]; eexists; constructor.
  - destruct a; eexists; constructor.
  - eexists; constructor.
  - destruct a; eexists; constructor.
  - destruct (snoc_cases b) as [-> | (b0 & x & ->)]; eexists; constructor.
  - eexists; constructor.
  - eexists; constructor.
  - eexists; constructor.
Qed.
Lemma key_total k : k < 128 -> ~ In k [3; 7; 10; 13; 18] -> exists c, key k c.
Proof.
  intros L N. unfold key.
  destruct (Nat.eq_dec k 127); [exists DelPrev; tauto|]. destruct (le_lt_dec 32 k); [exists (Insert k); assert (32 <= k < 127) by lia; tauto|].
  destruct (in_dec Nat.eq_dec k [1; 2; 4; 6; 8; 11; 12; 21]) as [M | M].
  - cbn in M. destruct M as [<- | [<- | [<- | [<- | [<- | [<- | [<- | [<- | []]]]]]]]];
      [exists Head | exists Left | exists DelNext | exists Right | exists Left | exists Right | exists Tail | exists Clear]; tauto.
  - exists Nothing. do 8 right. split; [|reflexivity]. split; [assumption|]. cbn in *. tauto.
Qed.

(** ** History *)
Fixpoint numbered (q : Z) (hs : list (list nat)) : list entry :=
  match hs with [] => [] | h :: r => ((q + 1)%Z, Some h) :: numbered (q + 1) r end.
Definition everything (q : Z) (hs : list (list nat)) : list entry := (q, None) :: numbered q hs.
Lemma numbered_snoc hs : forall q h, numbered q (hs ++ [h]) = numbered q hs ++ [((q + Z.of_nat (length hs) + 1)%Z, Some h)].
Proof.
  induction hs as [|x hs IH]; intros q h; cbn [numbered app length]; [replace (q + Z.of_nat 0)%Z with q by lia; reflexivity|].
  rewrite IH. replace (q + 1 + Z.of_nat (length hs) + 1)%Z with (q + Z.of_nat (S (length hs)) + 1)%Z by lia. reflexivity.
Qed.
Lemma everything_nth hs : forall q i e, nth_error (numbered q hs) i = Some e -> exists h, nth_error hs i = Some h /\ e = ((q + Z.of_nat i + 1)%Z, Some h).
Proof.
  induction hs as [|x hs IH]; intros q [|i] e E; cbn in E; try discriminate.
  - injection E as <-. exists x. split; [reflexivity|]. replace (q + Z.of_nat 0 + 1)%Z with (q + 1)%Z by lia. reflexivity.
  - destruct (IH _ _ _ E) as (h & Eh & ->). exists h. split; [exact Eh|]. replace (q + Z.of_nat (S i) + 1)%Z with (q + 1 + Z.of_nat i + 1)%Z by lia. reflexivity.
Qed.
Lemma numbered_length hs : forall q, length (numbered q hs) = length hs.
Proof. induction hs; intros; cbn; auto. Qed.

(** [kept] are the last entries, [lost] of them are gone *)
Definition hinv (n : nat) (q : Z) (hs : list (list nat)) (s : history) : Prop :=
  exists lost kept, everything q hs = lost ++ kept /\ arr s = map Some kept ++ repeat None (n - length kept) /\ S (hindex s) = length kept /\ hmax s = n /\
    hseq s = (q + Z.of_nat (length hs))%Z /\ length kept <= n /\ (lost <> [] -> length kept = n).
Lemma firstn_map_app (kept : list entry) r : firstn (length kept) (map Some kept ++ r) = map Some kept.
Proof. rewrite firstn_app, map_length, Nat.sub_diag, firstn_O, app_nil_r. apply firstn_all2. rewrite map_length. lia. Qed.
Lemma hinv_add n q hs s h : 1 <= n -> hinv n q hs s -> hinv n q (hs ++ [h]) (add_history h s).
Proof.
  intros Ln (lost & kept & E & A & I0 & M & Q & L & F). set (x := ((q + Z.of_nat (length hs) + 1)%Z, Some h) : entry).
  assert (E' : everything q (hs ++ [h]) = lost ++ kept ++ [x]).
  { transitivity (everything q hs ++ [x]); [unfold everything; rewrite numbered_snoc; reflexivity|]. rewrite E, <- app_assoc. reflexivity. }
  unfold add_history. rewrite M, Q, I0. fold x. destruct (Nat.leb_spec n (length kept)) as [Full | Room].
  - assert (Lk : length kept = n) by lia. destruct kept as [|k0 kept]; [cbn in Lk; lia|]. cbn [length] in *.
    exists (lost ++ [k0]), (kept ++ [x]). split; [rewrite E'; rewrite <- !app_assoc; reflexivity|]. cbn [arr hindex hmax hseq].
    rewrite A. replace (n - S (length kept)) with 0 by lia. cbn [repeat map]. rewrite app_nil_r. cbn [skipn].
    split.
    { unfold set_nth. replace (n - 1) with (length kept) by lia. rewrite firstn_map_app.
      rewrite skipn_all2; [|rewrite app_length, skipn_length; cbn [length]; rewrite map_length; lia].
      rewrite map_app, app_length. cbn [map length]. replace (n - (length kept + 1)) with 0 by lia. cbn [repeat]. rewrite app_nil_r. reflexivity. }
    rewrite !app_length. cbn [length]. split; [lia|]. split; [reflexivity|]. split; [lia|]. split; [lia|]. lia.
  - assert (lost = []) as -> by (destruct lost; [reflexivity|]; assert (length kept = n) by (apply F; discriminate); lia).
    exists [], (kept ++ [x]). split; [exact E'|]. cbn [arr hindex hmax hseq]. rewrite !app_length. cbn [length]. split.
    { unfold set_nth. rewrite A, firstn_map_app, map_app, <- app_assoc. cbn [map app]. do 2 f_equal.
      rewrite skipn_app, map_length. rewrite skipn_all2 by (rewrite map_length; lia). cbn [app]. replace (S (length kept) - length kept) with 1 by lia.
      replace (n - length kept) with (S (n - (length kept + 1))) by lia. cbn [repeat skipn]. reflexivity. }
    split; [lia|]. split; [reflexivity|]. split; [lia|]. split; [lia|]. intros C. congruence.
Qed.
Lemma hinv_all n q hs : 1 <= n -> exists s0, new_history n q = Val s0 /\ hinv n q hs (fold_left (fun s h => add_history h s) hs s0).
Proof.
  intros Ln. destruct n as [|n]; [lia|]. eexists. split; [reflexivity|]. induction hs as [|h hs IH] using rev_ind.
  - exists [], (everything q []). cbn. split; [reflexivity|]. split; [rewrite Nat.sub_0_r; reflexivity|]. split; [reflexivity|]. split; [reflexivity|]. split; [lia|]. split; [lia|]. intros C. congruence.
  - rewrite fold_left_app. cbn [fold_left]. apply hinv_add; [lia | exact IH].
Qed.
(** the command [j] is in the array at its place *)
Lemma hinv_nth n q hs s : 1 <= n -> hinv n q hs s -> exists lost, lost + S (hindex s) = S (length hs) /\ S (hindex s) <= n /\ (lost > 0 -> S (hindex s) = n) /\
  forall i, (forall j h, nth_error hs j = Some h -> S j = lost + i -> nth_error (arr s) i = Some (Some ((q + Z.of_nat j + 1)%Z, Some h))).
Proof.
  intros Ln (lost & kept & E & A & I0 & M & Q & L & F). exists (length lost).
  assert (Len : length lost + length kept = S (length hs)).
  { rewrite <- app_length, <- E. unfold everything. cbn [length]. rewrite numbered_length. reflexivity. }
  split; [lia|]. split; [lia|]. split; [intros G; rewrite I0; apply F; destruct lost; [cbn in G; lia | discriminate]|].
  intros i j h Eh J. assert (Lj : j < length hs) by (apply nth_error_Some; congruence).
  assert (Li : i < length kept) by lia.
  assert (N : nth_error (everything q hs) (S j) = nth_error kept i) by (rewrite E, nth_error_app2 by lia; f_equal; lia).
  rewrite A, nth_error_app1 by (rewrite map_length; exact Li). rewrite nth_error_map, <- N. unfold everything. cbn [nth_error].
  destruct (nth_error (numbered q hs) j) as [e|] eqn:En; [|apply nth_error_None in En; rewrite numbered_length in En; lia].
  destruct (everything_nth _ _ _ _ En) as (h' & Eh' & ->). assert (h' = h) as -> by congruence. reflexivity.
Qed.

(** ** Patterns *)
Lemma upcase_capital c : capital c (upcase c).
Proof.
  unfold upcase, capital. destruct (Nat.leb_spec 97 c); destruct (Nat.leb_spec c 122); cbn [andb]; [left | right | right | right]; (split; [lia | reflexivity]).
Qed.
Lemma capital_fun c u v : capital c u -> capital c v -> u = v.
Proof. unfold capital. lia. Qed.
Lemma same_letter_iff c d : (upcase c =? upcase d) = true <-> same_letter c d.
Proof.
  rewrite Nat.eqb_eq. split.
  - intros E. exists (upcase c). split; [apply upcase_capital | rewrite E; apply upcase_capital].
  - intros (u & C & D). rewrite <- (capital_fun _ _ _ C (upcase_capital c)). apply (capital_fun _ _ _ D (upcase_capital d)).
Qed.
Lemma equal_chars_iff a : forall b, equal_chars a b = true <-> Forall2 same_letter a b.
Proof.
  induction a as [|x a IH]; intros [|y b]; cbn [equal_chars].
  - split; [constructor | reflexivity].
  - split; [discriminate | intros H; inversion H].
  - split; [discriminate | intros H; inversion H].
  - rewrite andb_true_iff, same_letter_iff, IH. split; [intros [? ?]; constructor; assumption | intros H; inversion H; auto].
Qed.
Lemma substring_loop_iff sub str : forall count j, substring_loop sub str j count = true <-> exists i, j <= i < j + count /\ Forall2 same_letter sub (firstn (length sub) (skipn i str)).
Proof.
  induction count as [|n IH]; intros j; cbn [substring_loop].
  - split; [discriminate | intros (i & H & _); lia].
  - destruct (equal_chars sub (firstn (length sub) (skipn j str))) eqn:E.
    + apply equal_chars_iff in E. split; [intros _; exists j; split; [lia | exact E] | reflexivity].
    + rewrite IH. split; intros (i & H & Fa); [exists i; split; [lia | exact Fa]|].
      destruct (Nat.eq_dec i j) as [-> | Ne]; [apply equal_chars_iff in Fa; congruence|]. exists i. split; [lia | exact Fa].
Qed.
Lemma substringp_iff sub str : substringp sub str = true <-> contains sub str.
Proof.
  unfold substringp. rewrite substring_loop_iff. split.
  - intros (i & L & Fa). exists (firstn i str), (firstn (length sub) (skipn i str)), (skipn (length sub) (skipn i str)).
    split; [rewrite firstn_skipn, firstn_skipn; reflexivity | exact Fa].
  - intros (pre & mid & post & -> & Fa). assert (Ls : length sub = length mid) by (clear - Fa; induction Fa; cbn; congruence). exists (length pre). split; [rewrite !app_length; lia|].
    rewrite skipn_app_exact, Ls, firstn_app_exact. exact Fa.
Qed.
Lemma search_spec (a : list (option entry)) pat : forall i, (forall j, 1 <= j <= i -> exists q h, nth_error a j = Some (Some (q, Some h))) ->
  match search_loop a pat i with
  | Some c => exists j q, 1 <= j <= i /\ nth_error a j = Some (Some (q, Some c)) /\ contains pat c /\
                forall j' q' c', j < j' <= i -> nth_error a j' = Some (Some (q', Some c')) -> ~ contains pat c'
  | None => forall j q c, 1 <= j <= i -> nth_error a j = Some (Some (q, Some c)) -> ~ contains pat c
  end.
Proof.
  induction i as [|n IH]; intros H; cbn [search_loop]; [intros; lia|].
  destruct (H (S n)) as (q & h & E); [lia|]. rewrite (nth_error_nth _ _ None E). cbn [text string_of].
  destruct (substringp pat h) eqn:S0.
  - apply substringp_iff in S0. exists (S n), q. split; [lia|]. split; [exact E|]. split; [exact S0|]. intros; lia.
  - assert (Nc : ~ contains pat h) by (rewrite <- substringp_iff; congruence).
    specialize (IH (fun j Hj => H j ltac:(lia))). destruct (search_loop a pat n) as [c|].
    + destruct IH as (j & q1 & Hj & Ej & C & Later). exists j, q1. split; [lia|]. split; [exact Ej|]. split; [exact C|].
      intros j' q' c' Hj' Ej'. destruct (Nat.eq_dec j' (S n)) as [-> | Ne]; [rewrite E in Ej'; injection Ej' as <- <-; exact Nc | eapply Later; [|exact Ej']; lia].
    + intros j q1 c Hj Ej. destruct (Nat.eq_dec j (S n)) as [-> | Ne]; [rewrite E in Ej; injection Ej as <- <-; exact Nc | eapply IH; [|exact Ej]; lia].
Qed.
