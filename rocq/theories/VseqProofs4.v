(** Proofs for C89: MAP. *)
From Coq Require Import Lia.
From Verif Require Import VecProofs VseqModel VseqSpec VseqProofs VseqProofs2 VseqProofs3.
Open Scope Z_scope.

Definition after (i : nat) (q : sequ) : sequ := match q with Lst l => Lst (skipn i l) | _ => q end.
Lemma skipn_case {A} (l : list A) i d : skipn i l = if (i <? length l)%nat then nth i l d :: skipn (S i) l else [].
Proof. revert i. induction l as [|x l IH]; intros [|i]; try reflexivity. cbn [skipn length nth]. rewrite IH. reflexivity. Qed.
Lemma contents_length q : proper q -> to_end q -> forall i, (i < length (contents q))%nat <-> match q with Lst l => (i < length l)%nat | Vec v => (i < vecsize v)%nat | Arr a => Z.of_nat i + a_off a < Z.of_nat (vecsize (a_ent a)) end.
Proof.
  intros P T i. destruct q as [l|v|a]; cbn [contents]; [tauto|rewrite elements_length by exact P; tauto|]. destruct P as (W & d & Ed & H1 & H2 & H3). cbn [to_end] in T. rewrite Ed in *. cbn [nth] in *.
  rewrite size_part by (auto; lia). lia.
Qed.
Lemma collect_ok i : forall qs, Forall proper qs -> Forall to_end qs ->
  collect i (map (after i) qs) = Ret (if forallb (fun q => (i <? length (contents q))%nat) qs then Some (map (fun q => nth i (contents q) NIL) qs, map (after (S i)) qs) else None).
Proof.
  induction qs as [|q qs IH]; intros P T; [reflexivity|]. inversion P as [|? ? Pq Pr]; subst. inversion T as [|? ? Tq Tr]; subst. cbn [map collect forallb]. pose proof (contents_length q Pq Tq i) as L. specialize (IH Pr Tr).
  assert (forall o, o = Ret (if (i <? length (contents q))%nat then Some (nth i (contents q) NIL, after (S i) q) else None) ->
    (do o <- o; match o with None => Ret None | Some (x, q) => do o <- collect i (map (after i) qs); Ret (option_map (fun '(xs, qs) => (x :: xs, q :: qs)) o) end) =
    Ret (if (i <? length (contents q))%nat && forallb (fun q => (i <? length (contents q))%nat) qs then Some (nth i (contents q) NIL :: map (fun q => nth i (contents q) NIL) qs, after (S i) q :: map (after (S i)) qs) else None)) as HH.
  { intros o ->. cbn [bind]. destruct (i <? length (contents q))%nat; cbn [andb]; [|reflexivity]. rewrite IH. cbn [bind]. destruct (forallb _ qs); reflexivity. }
  apply HH. clear HH IH. destruct q as [l|v|a]; cbn [after contents] in *.
  - rewrite (skipn_case l i NIL). destruct (i <? length l)%nat; reflexivity.
  - rewrite elements_length by exact Pq. destruct (Nat.ltb_spec i (vecsize v)) as [Hl|]; [|reflexivity]. rewrite fastvref_ok by auto. cbn [bind]. do 3 f_equal. apply nth_indep. rewrite elements_length by exact Pq. exact Hl.
  - destruct Pq as (W & d & Ed & H1 & H2 & H3). cbn [to_end] in Tq. rewrite Ed in *. cbn [nth] in *. destruct (Z.ltb_spec (Z.of_nat i + a_off a) (Z.of_nat (vecsize (a_ent a)))) as [Hl|Hl]; destruct (Nat.ltb_spec i (length (firstn (Z.to_nat d) (skipn (Z.to_nat (a_off a)) (elements (a_ent a)))))) as [Hc|Hc]; try (exfalso; lia); [|reflexivity].
    unfold ref. destruct (Z.ltb_spec (Z.of_nat i + a_off a) 0); [lia|]. rewrite fastvref_ok by (auto; lia). cbn [bind]. do 3 f_equal. rewrite nth_part by lia. replace (Z.to_nat (a_off a) + i)%nat with (Z.to_nat (Z.of_nat i + a_off a)) by lia.
    apply nth_indep. rewrite elements_length by exact W. lia.
Qed.
Lemma shortest_spec ls i : ls <> [] -> (i <? shortest ls)%nat = forallb (fun l : list value => (i <? length l)%nat) ls.
Proof.
  destruct ls as [|l ls]; intros H; [congruence|]. clear H. cbn [shortest forallb]. generalize (length l) as n. induction ls as [|m ls IH]; intros n; cbn [fold_left forallb]; [rewrite andb_true_r; reflexivity|].
  rewrite IH. destruct (Nat.ltb_spec i (Nat.min n (length m))), (Nat.ltb_spec i n), (Nat.ltb_spec i (length m)); try lia; reflexivity.
Qed.
Lemma forallb_map' {A B} (f : B -> bool) (g : A -> B) l : forallb f (map g l) = forallb (fun x => f (g x)) l.
Proof. induction l as [|x l IH]; [reflexivity|]. cbn. rewrite IH. reflexivity. Qed.
Section Map.
Context {S : Type} (f : S -> list value -> out (S * value)).
Lemma map_loop_ok qs : qs <> [] -> Forall proper qs -> Forall to_end qs -> forall n i fuel s vals, (i + n = shortest (map contents qs))%nat -> (n < fuel)%nat ->
  map_loop f fuel i s (map (after i) qs) vals = do (s, ys) <- calls f s (map (fun i => map (fun l => nth i l NIL) (map contents qs)) (seq i n)); Ret (s, vals ++ ys).
Proof.
  intros N P T. induction n as [|n IH]; intros i fuel s vals Hi Hf; (destruct fuel as [|fuel]; [lia|]); cbn [map_loop]; rewrite collect_ok by assumption; cbn [bind];
  rewrite <- (forallb_map' (fun l => (i <? length l)%nat) contents), <- shortest_spec by (destruct qs; [congruence|discriminate]).
  - destruct (Nat.ltb_spec i (shortest (map contents qs))); [lia|]. cbn [seq map calls bind]. rewrite app_nil_r. reflexivity.
  - destruct (Nat.ltb_spec i (shortest (map contents qs))); [|lia]. cbn [seq map calls]. rewrite map_map.
    destruct (f s (map (fun q => nth i (contents q) NIL) qs)) as [[s1 y]| | |]; cbn [bind]; try reflexivity. rewrite (IH (Datatypes.S i)) by lia.
    destruct (calls f s1 _) as [[s2 ys]| | |]; cbn [bind]; try reflexivity. rewrite <- app_assoc. reflexivity.
Qed.
Lemma map_ok fuel k s qs : qs <> [] -> Forall proper qs -> Forall to_end qs -> (shortest (map contents qs) < fuel)%nat ->
  match calls f s (columns (map contents qs)) with
  | Ret (s', ys) => match k with
                    | Some k => exists o, makes k ys o /\ MAP f fuel (Some k) s qs = (do q <- o; Ret (s', q))
                    | None => MAP f fuel None s qs = Ret (s', Lst [])
                    end
  | Error => MAP f fuel k s qs = Error
  | Hang => MAP f fuel k s qs = Hang
  | Undef => MAP f fuel k s qs = Undef
  end.
Proof.
  intros N P T Hf. assert (map (after 0) qs = qs) as E0 by (clear; induction qs as [|q r IH]; [reflexivity|]; cbn [map]; rewrite IH; destruct q; reflexivity).
  assert (forall k, MAP f fuel k s qs = do (s, vals) <- map_loop f fuel 0 s (map (after 0) qs) []; match k with Some k => do q <- makesequence k vals; Ret (s, q) | None => Ret (s, Lst []) end) as EM by (intros k'; rewrite E0; destruct qs; [congruence|reflexivity]).
  rewrite (map_loop_ok qs N P T (shortest (map contents qs)) 0 fuel s [] eq_refl Hf) in EM. fold (columns (map contents qs)) in EM.
  destruct (calls f s (columns (map contents qs))) as [[s' ys]| | |]; cbn [bind app] in EM; try (apply EM). destruct k as [k|]; [|apply EM]. exists (makesequence k ys). split; [apply makesequence_ok|apply EM].
Qed.
End Map.
