From Verif Require Import HashModel.

(** * Vectors *)
Lemma upd_split {A} (l : list A) i x d : i < length l ->
  exists l1 l2, l = l1 ++ nth i l d :: l2 /\ upd i x l = l1 ++ x :: l2 /\ length l1 = i.
Proof.
  revert i. induction l as [|a l IH]; intros i H; [cbn in H; lia|]. destruct i as [|i].
  - exists [], l. auto.
  - cbn [length] in H. destruct (IH i ltac:(lia)) as (l1 & l2 & E1 & E2 & E3).
    exists (a :: l1), l2. cbn [nth upd app length]. rewrite <- E1, E2, E3. auto.
Qed.

Lemma upd_length {A} (l : list A) i x : length (upd i x l) = length l.
Proof. revert i. induction l as [|a l IH]; intros [|i]; cbn [upd length]; auto. Qed.

Lemma nth_upd {A} (l : list A) i j x d : i < length l -> nth j (upd i x l) d = if j =? i then x else nth j l d.
Proof.
  revert i j. induction l as [|a l IH]; intros i j H; [cbn in H; lia|].
  destruct i as [|i], j as [|j]; cbn [upd nth Nat.eqb]; try reflexivity.
  cbn [length] in H. apply IH. lia.
Qed.

(** * The abstract map *)
Section Spec.
  Context {K V : Type} (test : K -> K -> bool).

  Definition sput (k : K) (v : V) (m : list (K * V)) : list (K * V) :=
    (k, v) :: filter (fun p => negb (test (fst p) k)) m.
  Definition srem (k : K) (m : list (K * V)) : list (K * V) := filter (fun p => negb (test (fst p) k)) m.
  Definition sget (nf : V) (k : K) (m : list (K * V)) : V :=
    match List.find (fun p => test (fst p) k) m with Some p => snd p | None => nf end.

  Definition sstep (nf : V) (m : list (K * V)) (o : op (K := K) (V := V)) : list (K * V) * result :=
    match o with
    | Put k v => (sput k v m, RVal v)
    | Get k => (m, RVal (sget nf k m))
    | Rem k => (srem k m, RNone)
    | Clr => ([], RNone)
    | Count => (m, RCount (length m))
    | ListAll => (m, RList m)
    end.

  Fixpoint srun (nf : V) (m : list (K * V)) (os : list op) : list result :=
    match os with
    | [] => []
    | o :: r => snd (sstep nf m o) :: srun nf (fst (sstep nf m o)) r
    end.

  (** results agree; a listing may come in any order *)
  Definition same_result (a b : result (K := K) (V := V)) : Prop :=
    match a, b with
    | RList x, RList y => Permutation x y
    | _, _ => a = b
    end.
End Spec.

Section Proofs.
  Context {K V : Type} (hash : K -> nat) (test : K -> K -> bool) (over : nat -> nat -> bool) (vnil : V).
  Hypothesis test_sym : forall a b, test a b = true -> test b a = true.
  Hypothesis test_trans : forall a b c, test a b = true -> test b c = true -> test a c = true.
  Hypothesis test_hash : forall a b, test a b = true -> hash a = hash b.

  Notation vec_t := (list (@slot K * V)).
  Definition slot_at (l : vec_t) i := fst (nth i l (Empty, vnil)).
  Definition pos (n h j : nat) := if h + j <? n then h + j else h + j - n.

  Definition chain (l : vec_t) := forall k j, j < length l ->
    slot_at l (pos (length l) (hash k mod length l) j) = Key k ->
    forall j', j' < j -> slot_at l (pos (length l) (hash k mod length l) j') <> Empty.
  Definition uniq (l : vec_t) := forall i j a b, i < length l -> j < length l ->
    slot_at l i = Key a -> slot_at l j = Key b -> test a b = true -> i = j.
  Definition used (l : vec_t) := length (filter (fun e => negb (is_empty (fst e))) l).
  Definition vpairs (l : vec_t) : list (K * V) :=
    flat_map (fun e => match fst e with Key k => [(k, snd e)] | _ => [] end) l.

  Record inv (t : table) : Prop := {
    inv_chain : chain (vec t);
    inv_uniq : uniq (vec t);
    inv_fill : fill_count t = used (vec t);
    inv_count : count t = length (vpairs (vec t));
    inv_space : used (vec t) < length (vec t) }.

  Lemma pos_lt n h j : h < n -> j < n -> pos n h j < n.
  Proof. unfold pos. intros. destruct (Nat.ltb_spec (h + j) n); lia. Qed.
  Lemma pos_inj n h i j : h < n -> i < n -> j < n -> pos n h i = pos n h j -> i = j.
  Proof. unfold pos. intros. destruct (Nat.ltb_spec (h + i) n), (Nat.ltb_spec (h + j) n); lia. Qed.
  Lemma pos_surj n h i : h < n -> i < n -> exists j, j < n /\ pos n h j = i.
  Proof.
    intros. exists (if h <=? i then i - h else i + n - h). unfold pos.
    destruct (Nat.leb_spec h i);
      [destruct (Nat.ltb_spec (h + (i - h)) n)|destruct (Nat.ltb_spec (h + (i + n - h)) n)]; lia.
  Qed.
  Lemma pos_next n h j : h < n -> S j < n -> (if n <=? S (pos n h j) then 0 else S (pos n h j)) = pos n h (S j).
  Proof.
    unfold pos. intros. destruct (Nat.ltb_spec (h + j) n), (Nat.ltb_spec (h + S j) n);
      destruct (Nat.leb_spec n (S (h + j))); try destruct (Nat.leb_spec n (S (h + j - n))); lia.
  Qed.

  Lemma used_app l1 l2 : used (l1 ++ l2) = used l1 + used l2.
  Proof. unfold used. rewrite filter_app, app_length. reflexivity. Qed.
  Lemma vpairs_app l1 l2 : vpairs (l1 ++ l2) = vpairs l1 ++ vpairs l2.
  Proof. apply flat_map_app. Qed.

  Lemma used_le l : used l <= length l.
  Proof. induction l as [|a l IH]; cbn; [lia|]. unfold used in *. destruct (negb _); cbn; lia. Qed.

  Lemma empty_exists (l : vec_t) : used l < length l -> exists i, i < length l /\ slot_at l i = Empty.
  Proof.
    unfold slot_at. induction l as [|a l IH]; intros H; [cbn in H; lia|].
    destruct (fst a) eqn:E; [exists 0; split; [cbn; lia|exact E]| |];
      (destruct IH as (i & Hi & Ei); [unfold used in *; cbn in *; rewrite E in H; cbn in H; lia|];
       exists (S i); split; [cbn; lia|exact Ei]).
  Qed.

  (** * :find *)
  Definition find_ok (l : vec_t) (s : K) (r : found) : Prop :=
    match r with
    | Found i => i < length l /\ exists k, slot_at l i = Key k /\ test k s = true
    | Vacant i => i < length l /\ (forall k, slot_at l i <> Key k) /\
        (forall idx k, idx < length l -> slot_at l idx = Key k -> test k s = false) /\
        exists j, j < length l /\ i = pos (length l) (hash s mod length l) j /\
          forall j', j' < j -> slot_at l (pos (length l) (hash s mod length l) j') <> Empty
    end.

  Lemma find_loop_ok (l : vec_t) s : chain l -> let n := length l in let h := hash s mod n in h < n ->
    forall fuel j e, j + fuel = n ->
    (forall j', j' < j -> slot_at l (pos n h j') <> Empty /\
       forall k, slot_at l (pos n h j') = Key k -> test k s = false) ->
    match e with None => True | Some p => exists je, je < j /\ p = pos n h je /\ slot_at l p = Deleted end ->
    (exists j0, j <= j0 < n /\ slot_at l (pos n h j0) = Empty) ->
    exists r, find_loop test vnil fuel l s (pos n h j) e = Some r /\ find_ok l s r.
  Proof.
    intros C n h Hh. induction fuel as [|f IH]; intros j e Hj Hs He (j0 & Hj0 & E0); [lia|].
    cbn [find_loop]. cbv zeta. fold (slot_at l (pos n h j)).
    assert (Hnext : forall e', slot_at l (pos n h j) <> Empty ->
       (forall k, slot_at l (pos n h j) = Key k -> test k s = false) ->
       match e' with None => True | Some p => exists je, je < S j /\ p = pos n h je /\ slot_at l p = Deleted end ->
       exists r, find_loop test vnil f l s (if length l <=? S (pos n h j) then 0 else S (pos n h j)) e' = Some r /\
                 find_ok l s r).
    { intros e' Ne Nt He'. assert (j <> j0) by (intros ->; congruence).
      change (length l) with n. rewrite pos_next by lia. apply IH; [lia| |exact He'|].
      - intros j' Hj'. destruct (Nat.eq_dec j' j) as [->|]; [auto|apply Hs; lia].
      - exists j0. split; [lia|exact E0]. }
    destruct (slot_at l (pos n h j)) as [| |k] eqn:E.
    - eexists. split; [reflexivity|].
      assert (NoKey : forall idx k, idx < length l -> slot_at l idx = Key k -> test k s = false).
      { intros idx k Hi Hk. destruct (test k s) eqn:T; [|reflexivity]. exfalso.
        destruct (pos_surj n h idx Hh Hi) as (jk & Hjk & <-).
        assert (Eh : hash k mod n = h) by (unfold h; rewrite (test_hash _ _ T); reflexivity).
        destruct (Nat.lt_trichotomy jk j) as [L|[L|L]].
        - destruct (Hs jk L) as [_ Hk2]. rewrite (Hk2 k Hk) in T. discriminate.
        - subst jk. congruence.
        - pose proof (C k jk Hjk) as CC. fold n in CC. rewrite Eh in CC. exact (CC Hk j L E). }
      destruct e as [p|].
      + destruct He as (je & Hje & -> & Ed). cbn [find_ok]. fold n. fold h.
        split; [apply pos_lt; lia|]. split; [congruence|]. split; [exact NoKey|].
        exists je. split; [lia|]. split; [reflexivity|]. intros j' Hj'. apply Hs. lia.
      + cbn [find_ok]. fold n. fold h. split; [apply pos_lt; lia|]. split; [congruence|].
        split; [exact NoKey|]. exists j. split; [lia|]. split; [reflexivity|]. intros j' Hj'. apply Hs. lia.
    - apply Hnext; [congruence|congruence|]. destruct e as [p|].
      + destruct He as (je & ? & ? & ?). exists je. split; [lia|auto].
      + exists j. split; [lia|auto].
    - destruct (test k s) eqn:T.
      + eexists. split; [reflexivity|]. cbn [find_ok]. split; [apply pos_lt; lia|]. eauto.
      + apply Hnext; [congruence|intros k' [= <-]; exact T|]. destruct e as [p|]; [|exact I].
        destruct He as (je & ? & ? & ?). exists je. split; [lia|auto].
  Qed.

  Lemma find_total t s : inv t -> exists r, find hash test vnil t s = Some r /\ find_ok (vec t) s r.
  Proof.
    intros [C U F N S]. unfold find, size. set (n := length (vec t)).
    assert (Hh : hash s mod n < n) by (apply Nat.mod_upper_bound; unfold n; lia).
    destruct (empty_exists (vec t) S) as (i & Hi & Ei).
    destruct (pos_surj n (hash s mod n) i Hh Hi) as (j0 & Hj0 & Ep).
    destruct (find_loop_ok (vec t) s C Hh n 0 None) as (r & Er & Okr).
    - lia.
    - lia.
    - exact I.
    - exists j0. fold n. rewrite Ep. split; [lia|exact Ei].
    - exists r. split; [|exact Okr]. rewrite <- Er. f_equal. unfold pos. fold n.
      destruct (Nat.ltb_spec (hash s mod n + 0) n); lia.
  Qed.

  (** * counting *)
  Lemma slot_upd l i j x : i < length l -> slot_at (upd i x l) j = if j =? i then fst x else slot_at l j.
  Proof. intros H. unfold slot_at. rewrite nth_upd by assumption. destruct (j =? i); reflexivity. Qed.

  Lemma used_upd l i x : i < length l ->
    used (upd i x l) + (if is_empty (slot_at l i) then 0 else 1) = used l + (if is_empty (fst x) then 0 else 1).
  Proof.
    intros H. unfold slot_at. destruct (upd_split l i x (Empty, vnil) H) as (l1 & l2 & E1 & E2 & _).
    rewrite E2. rewrite E1 at 2. set (y := nth i l (Empty, vnil)). clearbody y. clear E1 E2.
    change (x :: l2) with ([x] ++ l2). change (y :: l2) with ([y] ++ l2). rewrite !used_app.
    unfold used. cbn [filter]. destruct (is_empty (fst x)), (is_empty (fst y)); cbn [negb length]; lia.
  Qed.

  Definition epair (e : @slot K * V) : list (K * V) := match fst e with Key k => [(k, snd e)] | _ => [] end.

  Lemma vpairs_upd l i x : i < length l ->
    exists rest, Permutation (vpairs l) (epair (nth i l (Empty, vnil)) ++ rest) /\
                 Permutation (vpairs (upd i x l)) (epair x ++ rest) /\
                 forall k v, In (k, v) rest -> exists j, j < length l /\ j <> i /\ slot_at l j = Key k.
  Proof.
    intros H. destruct (upd_split l i x (Empty, vnil) H) as (l1 & l2 & E1 & E2 & E3).
    exists (vpairs l1 ++ vpairs l2). rewrite E2. split; [|split].
    - rewrite E1 at 1. rewrite vpairs_app. cbn [vpairs flat_map]. fold (vpairs l2).
      fold (epair (nth i l (Empty, vnil))). apply Permutation_app_swap_app.
    - rewrite vpairs_app. cbn [vpairs flat_map]. fold (vpairs l2). fold (epair x). apply Permutation_app_swap_app.
    - assert (G : forall (l0 : vec_t) k v, In (k, v) (vpairs l0) -> exists j, j < length l0 /\ slot_at l0 j = Key k).
      { intros l0 k v. induction l0 as [|e l0 IH]; [intros []|]. cbn [vpairs flat_map]. intros Hin.
        apply in_app_or in Hin. destruct Hin as [Hin|Hin].
        - exists 0. split; [cbn; lia|]. unfold slot_at. cbn [nth]. destruct (fst e); [destruct Hin|destruct Hin|].
          destruct Hin as [[= -> _]|[]]. reflexivity.
        - destruct (IH Hin) as (j & Hj & Ej). exists (S j). split; [cbn; lia|exact Ej]. }
      intros k v Hin. apply in_app_or in Hin. destruct Hin as [Hin|Hin]; apply G in Hin; destruct Hin as (j & Hj & Ej).
      + exists j. split; [lia|]. split; [lia|]. unfold slot_at in *. rewrite E1, app_nth1 by lia. exact Ej.
      + exists (i + S j). rewrite E1 at 1. rewrite app_length. cbn [length]. split; [lia|]. split; [lia|].
        unfold slot_at in *. rewrite E1, app_nth2, E3 by lia. replace (i + S j - i) with (S j) by lia. exact Ej.
  Qed.

  (** the abstract map restricted: no two pairs have equivalent keys *)
  Lemma filter_all {A} (f : A -> bool) l : (forall x, In x l -> f x = true) -> filter f l = l.
  Proof.
    induction l as [|a l IH]; intros H; [reflexivity|]. cbn. rewrite (H a (or_introl eq_refl)), IH; [reflexivity|].
    intros x Hx. apply H. right. exact Hx.
  Qed.

  Lemma filter_perm {A} (f : A -> bool) l l' : Permutation l l' -> Permutation (filter f l) (filter f l').
  Proof.
    induction 1; cbn.
    - constructor.
    - destruct (f x); [constructor|]; assumption.
    - destruct (f x), (f y); (reflexivity || apply perm_swap).
    - etransitivity; eassumption.
  Qed.

  (** at a vacant position nothing equivalent is stored *)
  Lemma vacant_none l s i : find_ok l s (Vacant i) -> forall k v, In (k, v) (vpairs l) -> test k s = false.
  Proof.
    intros (Hi & Nk & No & _) k v Hin.
    destruct (vpairs_upd l i (Empty, vnil) Hi) as (rest & P1 & _ & Hr).
    assert (E : epair (nth i l (Empty, vnil)) = []).
    { unfold epair. fold (slot_at l i). destruct (slot_at l i) as [| |k'] eqn:E; [reflexivity|reflexivity|].
      destruct (Nk k' eq_refl). }
    rewrite E in P1. cbn [app] in P1. apply (Permutation_in _ P1) in Hin.
    destruct (Hr k v Hin) as (j & Hj & _ & Ej). exact (No j k Hj Ej).
  Qed.

  (** * steps preserve the invariant *)
  Lemma store_new_ok t s i v : inv t -> find_ok (vec t) s (Vacant i) -> S (used (vec t)) < length (vec t) ->
    inv (store_new vnil t i s v) /\
    Permutation (vpairs (vec (store_new vnil t i s v))) ((s, v) :: vpairs (vec t)) /\
    length (vec (store_new vnil t i s v)) = length (vec t).
  Proof.
    intros [C U F N S] (Hi & Nk & No & j & Hj & Ei & Path) Sp. set (n := length (vec t)) in *.
    unfold store_new. cbn [vec fill_count count].
    assert (Ln : length (upd i (Key s, v) (vec t)) = n) by apply upd_length.
    pose proof (used_upd (vec t) i (Key s, v) Hi) as UU. cbn [fst is_empty] in UU.
    destruct (vpairs_upd (vec t) i (Key s, v) Hi) as (rest & P1 & P2 & _).
    assert (E : epair (nth i (vec t) (Empty, vnil)) = []).
    { unfold epair. fold (slot_at (vec t) i). destruct (slot_at (vec t) i) as [| |k'] eqn:E; [reflexivity|reflexivity|].
      destruct (Nk k' eq_refl). }
    rewrite E in P1. cbn [app] in P1. unfold epair in P2. cbn [fst snd app] in P2.
    assert (P : Permutation (vpairs (upd i (Key s, v) (vec t))) ((s, v) :: vpairs (vec t))).
    { rewrite P2. constructor. symmetry. exact P1. }
    split; [|split; [exact P|exact Ln]].
    assert (Hn : hash s mod n < n) by (apply Nat.mod_upper_bound; lia).
    constructor; cbn [vec fill_count count].
    - intros k jk Hjk Hk j' Hj'. rewrite Ln in *. rewrite slot_upd in Hk |- * by exact Hi.
      destruct (Nat.eqb_spec (pos n (hash k mod n) j') i); [cbn; congruence|].
      destruct (Nat.eqb_spec (pos n (hash k mod n) jk) i) as [e|e].
      + cbn [fst] in Hk. injection Hk as <-. rewrite Ei in e. apply pos_inj in e; try lia. subst jk.
        apply Path. exact Hj'.
      + apply (C k jk Hjk Hk j' Hj').
    - intros a b ka kb Ha Hb Hka Hkb T. rewrite Ln in *. rewrite slot_upd in Hka, Hkb by exact Hi.
      destruct (Nat.eqb_spec a i) as [->|Na], (Nat.eqb_spec b i) as [->|Nb].
      + reflexivity.
      + cbn [fst] in Hka. injection Hka as <-. exfalso. apply test_sym in T. rewrite (No b kb Hb Hkb) in T. discriminate.
      + cbn [fst] in Hkb. injection Hkb as <-. exfalso. rewrite (No a ka Ha Hka) in T. discriminate.
      + exact (U a b ka kb Ha Hb Hka Hkb T).
    - fold (slot_at (vec t) i). rewrite F. destruct (is_empty (slot_at (vec t) i)); lia.
    - rewrite N. rewrite (Permutation_length P). reflexivity.
    - rewrite Ln. destruct (is_empty (slot_at (vec t) i)); lia.
  Qed.

  (** the entry found is the only equivalent one *)
  Lemma found_pairs l i k s x : uniq l -> i < length l -> slot_at l i = Key k -> test k s = true ->
    exists v rest, snd (nth i l (Empty, vnil)) = v /\ Permutation (vpairs l) ((k, v) :: rest) /\
      Permutation (vpairs (upd i x l)) (epair x ++ rest) /\
      (forall p, In p rest -> test (fst p) s = false).
  Proof.
    intros U Hi Ek T. destruct (vpairs_upd l i x Hi) as (rest & P1 & P2 & Hr).
    exists (snd (nth i l (Empty, vnil))), rest. split; [reflexivity|].
    assert (E : epair (nth i l (Empty, vnil)) = [(k, snd (nth i l (Empty, vnil)))]).
    { unfold epair. fold (slot_at l i). rewrite Ek. reflexivity. }
    rewrite E in P1. split; [exact P1|]. split; [exact P2|].
    intros [k' v'] Hin. cbn [fst]. destruct (Hr k' v' Hin) as (j & Hj & Nj & Ej).
    destruct (test k' s) eqn:T2; [|reflexivity]. exfalso. apply Nj.
    apply (U j i k' k Hj Hi Ej Ek). apply (test_trans k' s k T2). apply test_sym, T.
  Qed.

  Lemma find_perm (m m' : list (K * V)) s p : Permutation m m' ->
    (forall q, In q m -> test (fst q) s = true -> q = p) -> In p m -> test (fst p) s = true ->
    List.find (fun p => test (fst p) s) m' = Some p.
  Proof.
    intros P H Hin T. assert (Hin' : In p m') by (apply (Permutation_in _ P Hin)).
    destruct (List.find (fun p0 => test (fst p0) s) m') as [q|] eqn:E.
    - apply find_some in E. destruct E as [E1 E2]. f_equal. apply H; [|exact E2].
      apply (Permutation_in _ (Permutation_sym P) E1).
    - rewrite (find_none _ _ E p Hin') in T. discriminate.
  Qed.

  Lemma filter_found (m : list (K * V)) k v s rest : Permutation m ((k, v) :: rest) -> test k s = true ->
    (forall p, In p rest -> test (fst p) s = false) ->
    Permutation (filter (fun p => negb (test (fst p) s)) m) rest.
  Proof.
    intros P T H. rewrite (filter_perm _ _ _ P). cbn [filter fst]. rewrite T. cbn [negb].
    rewrite filter_all; [reflexivity|]. intros p Hp. rewrite (H p Hp). reflexivity.
  Qed.

  Lemma store_old_ok t s i v : inv t -> find_ok (vec t) s (Found i) ->
    inv (store_old t i s v) /\
    Permutation (vpairs (vec (store_old t i s v))) (sput test s v (vpairs (vec t))) /\
    length (vec (store_old t i s v)) = length (vec t).
  Proof.
    intros [C U F N S] (Hi & k & Ek & T). set (n := length (vec t)) in *. unfold store_old. cbn [vec fill_count count].
    assert (Ln : length (upd i (Key s, v) (vec t)) = n) by apply upd_length.
    pose proof (used_upd (vec t) i (Key s, v) Hi) as UU. rewrite Ek in UU. cbn [fst is_empty] in UU.
    destruct (found_pairs (vec t) i k s (Key s, v) U Hi Ek T) as (v0 & rest & _ & P1 & P2 & Hr).
    unfold epair in P2. cbn [fst snd app] in P2.
    split; [|split; [|exact Ln]].
    - assert (EH : hash k = hash s) by (apply test_hash, T).
      constructor; cbn [vec fill_count count].
      + intros k' jk Hjk Hk j' Hj'. rewrite Ln in *. rewrite slot_upd in Hk |- * by exact Hi.
        destruct (Nat.eqb_spec (pos n (hash k' mod n) j') i); [cbn; congruence|].
        destruct (Nat.eqb_spec (pos n (hash k' mod n) jk) i) as [e|e].
        * cbn [fst] in Hk. injection Hk as <-. pose proof (C k jk Hjk) as CC. fold n in CC. rewrite EH, e in CC.
          apply CC; assumption.
        * apply (C k' jk Hjk Hk j' Hj').
      + intros a b ka kb Ha Hb Hka Hkb Tab. rewrite Ln in *. rewrite slot_upd in Hka, Hkb by exact Hi.
        destruct (Nat.eqb_spec a i) as [->|Na], (Nat.eqb_spec b i) as [->|Nb].
        * reflexivity.
        * cbn [fst] in Hka. injection Hka as <-. apply (U i b k kb); auto. apply (test_trans k s kb); assumption.
        * cbn [fst] in Hkb. injection Hkb as <-. apply (U a i ka k); auto.
          apply (test_trans ka s k Tab). apply test_sym, T.
        * exact (U a b ka kb Ha Hb Hka Hkb Tab).
      + lia.
      + rewrite N, (Permutation_length P1), (Permutation_length P2). reflexivity.
      + rewrite Ln. lia.
    - rewrite P2. unfold sput. constructor. symmetry. apply (filter_found _ k v0 s rest P1 T Hr).
  Qed.

  Lemma delete_ok t s i : inv t -> find_ok (vec t) s (Found i) ->
    let t' := {| vec := upd i (Deleted, vnil) (vec t); fill_count := fill_count t; count := count t - 1 |} in
    inv t' /\ Permutation (vpairs (vec t')) (srem test s (vpairs (vec t))) /\ length (vec t') = length (vec t).
  Proof.
    intros [C U F N S] (Hi & k & Ek & T). set (n := length (vec t)) in *. cbv zeta. cbn [vec fill_count count].
    assert (Ln : length (upd i (Deleted, vnil) (vec t)) = n) by apply upd_length.
    pose proof (used_upd (vec t) i (Deleted, vnil) Hi) as UU. rewrite Ek in UU. cbn [fst is_empty] in UU.
    destruct (found_pairs (vec t) i k s (Deleted, vnil) U Hi Ek T) as (v0 & rest & _ & P1 & P2 & Hr).
    unfold epair in P2. cbn [fst snd app] in P2.
    split; [|split; [|exact Ln]].
    - constructor; cbn [vec fill_count count].
      + intros k' jk Hjk Hk j' Hj'. rewrite Ln in *. rewrite slot_upd in Hk |- * by exact Hi.
        destruct (Nat.eqb_spec (pos n (hash k' mod n) j') i); [cbn; congruence|].
        destruct (Nat.eqb_spec (pos n (hash k' mod n) jk) i) as [e|e]; [discriminate|].
        apply (C k' jk Hjk Hk j' Hj').
      + intros a b ka kb Ha Hb Hka Hkb Tab. rewrite Ln in *. rewrite slot_upd in Hka, Hkb by exact Hi.
        destruct (Nat.eqb_spec a i), (Nat.eqb_spec b i); try discriminate.
        exact (U a b ka kb Ha Hb Hka Hkb Tab).
      + lia.
      + rewrite N, (Permutation_length P1), (Permutation_length P2). cbn [length]. lia.
      + rewrite Ln. lia.
    - rewrite P2. unfold srem. symmetry. apply (filter_found _ k v0 s rest P1 T Hr).
  Qed.

  Lemma slot_empty_table n i : slot_at (repeat (Empty, vnil) n) i = Empty.
  Proof.
    unfold slot_at. rewrite nth_repeat. reflexivity.
  Qed.

  Lemma empty_inv n : 0 < n -> inv (empty_table vnil n) /\ vpairs (vec (empty_table vnil n)) = [].
  Proof.
    intros Hn. unfold empty_table.
    assert (E1 : used (repeat (@Empty K, vnil) n) = 0).
    { unfold used. clear Hn. induction n; [reflexivity|]. cbn. exact IHn. }
    assert (E2 : vpairs (repeat (@Empty K, vnil) n) = []).
    { clear Hn E1. induction n; [reflexivity|]. cbn. exact IHn. }
    split; [|exact E2]. constructor; cbn [vec fill_count count].
    - intros k j _ H. rewrite slot_empty_table in H. discriminate.
    - intros i j a b _ _ H. rewrite slot_empty_table in H. discriminate.
    - symmetry. exact E1.
    - rewrite E2. reflexivity.
    - rewrite E1, repeat_length. exact Hn.
  Qed.

  (** * :extend *)
  Context (minsize : nat).
  Hypothesis over_room : forall f n, minsize <= n -> over f n = false -> S f < n.
  Hypothesis over_double : forall f n, minsize <= n -> f < n -> over f (2 * n) = false.

  Notation reenter := (fun ot e => match ot with
                          | None => None
                          | Some t' => match fst e with
                                       | Key k' => enter hash test over vnil 0 t' k' (snd e)
                                       | _ => Some t'
                                       end
                          end).

  (** keys of a pair list are pairwise inequivalent *)
  Fixpoint distinct (m : list (K * V)) : Prop :=
    match m with
    | [] => True
    | p :: r => (forall q, In q r -> test (fst p) (fst q) = false) /\ distinct r
    end.

  Lemma uniq_distinct l : uniq l -> distinct (vpairs l).
  Proof.
    induction l as [|e l IH]; intros U; [exact I|].
    assert (U' : uniq l).
    { intros i j a b Hi Hj Ha Hb T. apply Nat.succ_inj. apply (U (S i) (S j) a b); cbn [length]; auto; lia. }
    cbn [vpairs flat_map]. fold (vpairs l). specialize (IH U'). destruct (fst e) as [| |k] eqn:E; cbn [app]; auto.
    cbn [distinct]. split; [|exact IH]. intros [k' v'] Hin. cbn [fst].
    destruct (test k k') eqn:T; [|reflexivity]. exfalso.
    assert (G : exists j, j < length l /\ slot_at l j = Key k').
    { clear - Hin. induction l as [|e l IH]; [destruct Hin|]. cbn [vpairs flat_map] in Hin. apply in_app_or in Hin.
      destruct Hin as [Hin|Hin].
      - exists 0. split; [cbn; lia|]. unfold slot_at. cbn [nth]. destruct (fst e); [destruct Hin|destruct Hin|].
        destruct Hin as [[= -> _]|[]]. reflexivity.
      - destruct (IH Hin) as (j & Hj & Ej). exists (S j). split; [cbn; lia|exact Ej]. }
    destruct G as (j & Hj & Ej).
    assert (0 = S j); [|discriminate]. apply (U 0 (S j) k k'); cbn [length]; auto; lia.
  Qed.

  Lemma pairs_used l : length (vpairs l) <= used l.
  Proof.
    unfold used. induction l as [|e l IH]; [cbn; lia|]. cbn [vpairs flat_map filter]. fold (vpairs l). rewrite app_length.
    destruct (fst e); cbn [is_empty negb length]; lia.
  Qed.

  Lemma reenter_ok n : minsize <= n -> 0 < n -> forall l t, inv t -> length (vec t) = 2 * n ->
    used (vec t) + length (vpairs l) < n -> distinct (vpairs l) ->
    (forall p q, In p (vpairs (vec t)) -> In q (vpairs l) -> test (fst p) (fst q) = false) ->
    exists t', fold_left reenter l (Some t) = Some t' /\ inv t' /\ length (vec t') = 2 * n /\
      used (vec t') <= used (vec t) + length (vpairs l) /\
      Permutation (vpairs (vec t')) (vpairs l ++ vpairs (vec t)).
  Proof.
    intros Hm Hn. induction l as [|e l IH]; intros t It Lt Sp D Dis.
    - exists t. cbn. split; [reflexivity|]. split; [exact It|]. split; [exact Lt|]. split; [lia|reflexivity].
    - cbn [fold_left]. cbn [vpairs flat_map] in Sp, D, Dis |- *. fold (vpairs l) in Sp, D, Dis |- *.
      destruct (fst e) as [| |k] eqn:E; cbn [app] in *; [apply IH; auto|apply IH; auto|].
      assert (Fk : find hash test vnil t k = find hash test vnil t k) by reflexivity.
      destruct (find_total t k It) as (r & Er & Okr). cbn [enter]. rewrite Er.
      destruct r as [i|i].
      + exfalso. destruct Okr as (Hi & k' & Ek & T).
        destruct (found_pairs (vec t) i k' k (Empty, vnil) (inv_uniq t It) Hi Ek T) as (v0 & rest & _ & P1 & _).
        assert (test (fst (k', v0)) (fst (k, snd e)) = false) as H.
        { apply Dis; [|left; reflexivity]. apply (Permutation_in _ (Permutation_sym P1)). left. reflexivity. }
        cbn [fst] in H. congruence.
      + cbn [length] in Sp. rewrite (inv_fill t It). unfold size. rewrite Lt.
        rewrite over_double by (lia || assumption).
        destruct (store_new_ok t k i (snd e) It Okr ltac:(lia)) as (It' & P & L').
        cbn [distinct] in D. destruct D as [D1 D2].
        destruct (IH (store_new vnil t i k (snd e)) It') as (t' & Et & Itt & Ltt & Ut & Pt).
        * lia.
        * unfold store_new. cbn [vec]. destruct Okr as (Hi & _).
          pose proof (used_upd (vec t) i (Key k, snd e) Hi) as UU. cbn [fst is_empty] in UU.
          destruct (is_empty (slot_at (vec t) i)); lia.
        * exact D2.
        * intros p q Hp Hq. apply (Permutation_in _ P) in Hp. destruct Hp as [<-|Hp].
          -- apply D1. exact Hq.
          -- apply Dis; [exact Hp|right; exact Hq].
        * exists t'. split; [exact Et|]. split; [exact Itt|]. split; [exact Ltt|]. split.
          -- unfold store_new in Ut. cbn [vec] in Ut. destruct Okr as (Hi & _).
             pose proof (used_upd (vec t) i (Key k, snd e) Hi) as UU. cbn [fst is_empty] in UU. cbn [length].
             destruct (is_empty (slot_at (vec t) i)); lia.
          -- rewrite Pt, P. cbn [app]. symmetry. apply Permutation_middle.
  Qed.

  Lemma enter_S d t k v : enter hash test over vnil (S d) t k v =
    match find hash test vnil t k with
    | None => None
    | Some (Found i) => Some (store_old t i k v)
    | Some (Vacant i) =>
        if over (fill_count t) (size t) then
              match fold_left (fun ot e => match ot with
                          | None => None
                          | Some t' => match fst e with
                                       | Key k' => enter hash test over vnil d t' k' (snd e)
                                       | _ => Some t'
                                       end
                          end) (vec t) (Some (empty_table vnil (2 * size t))) with
              | None => None
              | Some t' => match find hash test vnil t' k with
                           | Some (Vacant i') => Some (store_new vnil t' i' k v)
                           | Some (Found i') => None
                           | None => None
                           end
              end
        else Some (store_new vnil t i k v)
    end.
  Proof. reflexivity. Qed.

  Theorem enter_ok t k v : minsize <= length (vec t) -> inv t ->
    exists t', enter hash test over vnil 1 t k v = Some t' /\ inv t' /\ length (vec t) <= length (vec t') /\
      Permutation (vpairs (vec t')) (sput test k v (vpairs (vec t))).
  Proof.
    intros Hm It. destruct (find_total t k It) as (r & Er & Okr). rewrite enter_S, Er. destruct r as [i|i].
    - destruct (store_old_ok t k i v It Okr) as (It' & P & L). eexists. split; [reflexivity|].
      split; [exact It'|]. split; [lia|exact P].
    - pose proof (vacant_none _ _ _ Okr) as NoK.
      assert (Ef : sput test k v (vpairs (vec t)) = (k, v) :: vpairs (vec t)).
      { unfold sput. f_equal. apply filter_all. intros [k' v'] Hin. cbn [fst]. rewrite (NoK k' v' Hin). reflexivity. }
      rewrite Ef. destruct (over (fill_count t) (size t)) eqn:Ov.
      + assert (Hn : 0 < length (vec t)) by (pose proof (inv_space t It); lia).
        destruct (empty_inv (2 * size t)) as [Ie Pe]; [unfold size; lia|].
        destruct (reenter_ok (length (vec t)) Hm Hn (vec t) (empty_table vnil (2 * size t)) Ie)
          as (t' & Et & It' & Lt' & Ut' & Pt').
        { unfold empty_table. cbn [vec]. rewrite repeat_length. reflexivity. }
        { assert (Ue : used (vec (empty_table (K := K) vnil (2 * size t))) = 0).
          { rewrite <- (inv_fill _ Ie). reflexivity. }
          rewrite Ue. pose proof (pairs_used (vec t)). pose proof (inv_space t It). lia. }
        { apply uniq_distinct, (inv_uniq t It). }
        { rewrite Pe. intros p q []. }
        rewrite Et. destruct (find_total t' k It') as (r' & Er' & Okr'). rewrite Er'.
        rewrite Pe, app_nil_r in Pt'.
        destruct r' as [i'|i'].
        * exfalso. destruct Okr' as (Hi & k' & Ek & T).
          destruct (found_pairs (vec t') i' k' k (Empty, vnil) (inv_uniq t' It') Hi Ek T) as (v0 & rest & _ & P1 & _).
          assert (Hin : In (k', v0) (vpairs (vec t))).
          { apply (Permutation_in _ Pt'). apply (Permutation_in _ (Permutation_sym P1)). left. reflexivity. }
          rewrite (NoK k' v0 Hin) in T. discriminate.
        * assert (Ue : used (vec (empty_table (K := K) vnil (2 * size t))) = 0).
          { rewrite <- (inv_fill _ Ie). reflexivity. }
          pose proof (pairs_used (vec t)). pose proof (inv_space t It).
          destruct (store_new_ok t' k i' v It' Okr') as (It2 & P2 & L2); [lia|].
          eexists. split; [reflexivity|]. split; [exact It2|]. split; [lia|].
          rewrite P2. constructor. exact Pt'.
      + assert (R : S (fill_count t) < length (vec t)) by (apply over_room; assumption).
        rewrite (inv_fill t It) in R. destruct (store_new_ok t k i v It Okr R) as (It' & P & L).
        eexists. split; [reflexivity|]. split; [exact It'|]. split; [lia|exact P].
  Qed.

  (** * Histories *)
  Definition R (t : table) (m : list (K * V)) : Prop :=
    inv t /\ minsize <= length (vec t) /\ Permutation (vpairs (vec t)) m.

  Lemma step_ok nf t m o : R t m ->
    exists t' r, step hash test over vnil nf t o = Some (t', r) /\ same_result r (snd (sstep test nf m o)) /\
                 R t' (fst (sstep test nf m o)).
  Proof.
    intros (It & Hm & P). destruct o as [k v|k|k| | |]; cbn [step sstep fst snd].
    - destruct (enter_ok t k v Hm It) as (t' & -> & It' & L & P'). exists t', (RVal v).
      split; [reflexivity|]. split; [reflexivity|]. split; [exact It'|]. split; [lia|].
      rewrite P'. unfold sput. constructor. apply filter_perm, P.
    - unfold get. destruct (find_total t k It) as (r & -> & Okr). destruct r as [i|i].
      + destruct Okr as (Hi & k' & Ek & T).
        destruct (found_pairs (vec t) i k' k (Empty, vnil) (inv_uniq t It) Hi Ek T) as (v0 & rest & Ev & P1 & _ & Hr).
        rewrite Ev. eexists _, _. split; [reflexivity|]. split; [|split; auto].
        cbn [same_result]. f_equal. unfold sget. symmetry.
        rewrite (find_perm ((k', v0) :: rest) m k (k', v0)); [reflexivity| | | |exact T].
        * etransitivity; [symmetry; exact P1|exact P].
        * intros q [<-|Hq] Tq; [reflexivity|]. rewrite (Hr q Hq) in Tq. discriminate.
        * left. reflexivity.
      + eexists _, _. split; [reflexivity|]. split; [|split; auto]. cbn [same_result]. f_equal. unfold sget.
        destruct (List.find (fun p => test (fst p) k) m) as [[k' v']|] eqn:E; [|reflexivity].
        apply find_some in E. destruct E as [E1 E2]. cbn [fst] in E2.
        rewrite (vacant_none _ _ _ Okr k' v') in E2; [discriminate|].
        apply (Permutation_in _ (Permutation_sym P) E1).
    - unfold delete. destruct (find_total t k It) as (r & -> & Okr). destruct r as [i|i].
      + destruct (delete_ok t k i It Okr) as (It' & P' & L'). eexists _, _. split; [reflexivity|].
        split; [reflexivity|]. split; [exact It'|]. cbv zeta in *. split; [lia|].
        rewrite P'. apply filter_perm, P.
      + eexists _, _. split; [reflexivity|]. split; [reflexivity|]. split; [exact It|]. split; [exact Hm|].
        rewrite P. unfold srem. rewrite filter_all; [reflexivity|]. intros [k' v'] Hin. cbn [fst].
        rewrite (vacant_none _ _ _ Okr k' v'); [reflexivity|].
        apply (Permutation_in _ (Permutation_sym P) Hin).
    - destruct (empty_inv (size t)) as [Ie Pe]; [unfold size; pose proof (inv_space t It); lia|].
      eexists _, _. split; [reflexivity|]. split; [reflexivity|]. unfold clear. split; [exact Ie|].
      split; [cbn [empty_table vec]; rewrite repeat_length; exact Hm|]. rewrite Pe. constructor.
    - eexists _, _. split; [reflexivity|]. split; [|split; auto]. cbn [same_result].
      rewrite (inv_count t It), (Permutation_length P). reflexivity.
    - eexists _, _. split; [reflexivity|]. split; [|split; auto]. cbn [same_result]. unfold list_pairs.
      rewrite <- P. symmetry. apply Permutation_rev.
  Qed.

  Theorem run_ok nf os : forall t m, R t m ->
    exists rs, run hash test over vnil nf t os = Some rs /\ Forall2 same_result rs (srun test nf m os).
  Proof.
    induction os as [|o os IH]; intros t m H; cbn [run srun].
    - exists []. auto.
    - destruct (step_ok nf t m o H) as (t' & r & -> & Sr & H'). destruct (IH t' _ H') as (rs & -> & F).
      eexists. split; [reflexivity|]. constructor; assumption.
  Qed.

  Theorem hash_table_map nf n os : minsize <= n -> 0 < n ->
    exists rs, run hash test over vnil nf (empty_table vnil n) os = Some rs /\
               Forall2 same_result rs (srun test nf [] os).
  Proof.
    intros Hm Hn. apply run_ok. destruct (empty_inv n Hn) as [I P]. split; [exact I|].
    split; [cbn [empty_table vec]; rewrite repeat_length; exact Hm|]. rewrite P. constructor.
  Qed.
End Proofs.

(** the load test with a rehash factor [p/q]: fill > size / (p/q) *)
Definition over_factor (p q fill size : nat) : bool := q * size <? p * fill.

Lemma over_factor_room p q n0 : q < p -> p < (p - q) * n0 ->
  forall f n, n0 <= n -> over_factor p q f n = false -> S f < n.
Proof.
  unfold over_factor. intros Hq Hn0 f n Hn H. apply Nat.ltb_ge in H.
  assert (p < (p - q) * n) by (pose proof (Nat.mul_le_mono_l n0 n (p - q) Hn); lia).
  rewrite Nat.mul_sub_distr_r in H0.
  destruct (Nat.lt_ge_cases (S f) n) as [L|L]; [exact L|].
  assert (p * n <= p * S f) by (apply Nat.mul_le_mono_l; exact L). rewrite Nat.mul_succ_r in H1. lia.
Qed.
Lemma over_factor_double p q : p <= 2 * q -> forall n0 f n, n0 <= n -> f < n -> over_factor p q f (2 * n) = false.
Proof.
  unfold over_factor. intros Hp _ f n _ Hf. apply Nat.ltb_ge.
  assert (p * f <= 2 * q * f) by (apply Nat.mul_le_mono_r; exact Hp).
  assert (q * f <= q * n) by (apply Nat.mul_le_mono_l; lia). lia.
Qed.

(** * What the abstract map returns, in terms of the history alone *)
Section History.
  Context {K V : Type} (test : K -> K -> bool).
  Hypothesis test_sym : forall a b, test a b = true -> test b a = true.
  Hypothesis test_trans : forall a b c, test a b = true -> test b c = true -> test a c = true.

  (** the value most recently stored under a key equivalent to [k]; the history is given latest first *)
  Fixpoint latest (k : K) (recent : list (op (K := K) (V := V))) : option V :=
    match recent with
    | [] => None
    | Put k' v :: r => if test k' k then Some v else latest k r
    | Rem k' :: r => if test k' k then None else latest k r
    | Clr :: _ => None
    | _ :: r => latest k r
    end.

  Definition smap (nf : V) (m : list (K * V)) (os : list op) := fold_left (fun m o => fst (sstep test nf m o)) os m.

  Lemma srun_app nf os os' : forall m, srun test nf m (os ++ os') = srun test nf m os ++ srun test nf (smap nf m os) os'.
  Proof. induction os as [|o os IH]; intros m; [reflexivity|]. cbn [srun app smap fold_left]. rewrite IH. reflexivity. Qed.

  Lemma find_filter k k' (m : list (K * V)) : test k' k = false ->
    List.find (fun p => test (fst p) k) (filter (fun p => negb (test (fst p) k')) m) = List.find (fun p => test (fst p) k) m.
  Proof.
    intros T. induction m as [|p m IH]; [reflexivity|]. cbn [filter List.find].
    destruct (test (fst p) k') eqn:T1; cbn [negb].
    - rewrite IH. destruct (test (fst p) k) eqn:T2; [|reflexivity].
      rewrite (test_trans k' (fst p) k) in T; [discriminate|apply test_sym, T1|exact T2].
    - cbn [List.find]. rewrite IH. reflexivity.
  Qed.

  Lemma find_filter_same k k' (m : list (K * V)) : test k' k = true ->
    List.find (fun p => test (fst p) k) (filter (fun p => negb (test (fst p) k')) m) = None.
  Proof.
    intros T. induction m as [|p m IH]; [reflexivity|]. cbn [filter].
    destruct (test (fst p) k') eqn:T1; cbn [negb]; [exact IH|]. cbn [List.find].
    destruct (test (fst p) k) eqn:T2; [|exact IH].
    rewrite (test_trans (fst p) k k' T2) in T1; [discriminate|apply test_sym, T].
  Qed.

  Lemma sget_latest nf k os :
    sget test nf k (smap nf [] os) = match latest k (rev os) with Some v => v | None => nf end.
  Proof.
    induction os as [|o os IH] using rev_ind; [reflexivity|]. unfold smap in *. rewrite fold_left_app, rev_unit.
    cbn [fold_left]. set (m := fold_left _ os []) in *. unfold sget in *.
    destruct o as [k' v|k'|k'| | |]; cbn [sstep fst latest].
    - unfold sput. cbn [List.find fst]. destruct (test k' k) eqn:T; [reflexivity|].
      rewrite find_filter by exact T. exact IH.
    - exact IH.
    - unfold srem. destruct (test k' k) eqn:T.
      + rewrite find_filter_same by exact T. reflexivity.
      + rewrite find_filter by exact T. exact IH.
    - reflexivity.
    - exact IH.
    - exact IH.
  Qed.
End History.

Section Final.
  Context {K V : Type} (hash : K -> nat) (test : K -> K -> bool) (vnil : V).
  Hypothesis test_sym : forall a b, test a b = true -> test b a = true.
  Hypothesis test_trans : forall a b c, test a b = true -> test b c = true -> test a c = true.
  Hypothesis test_hash : forall a b, test a b = true -> hash a = hash b.
  Context (p q n : nat).
  Hypothesis factor_low : q < p.
  Hypothesis factor_high : p <= 2 * q.
  Hypothesis big_enough : p < (p - q) * n.

  Lemma map_factor nf os :
    exists rs, run hash test (over_factor p q) vnil nf (empty_table vnil n) os = Some rs /\
               Forall2 same_result rs (srun test nf [] os).
  Proof.
    apply (hash_table_map hash test (over_factor p q) vnil test_sym test_trans test_hash n).
    - apply over_factor_room; assumption.
    - apply over_factor_double. assumption.
    - lia.
    - destruct n; lia.
  Qed.

  Lemma latest_factor nf os k : exists rs,
    run hash test (over_factor p q) vnil nf (empty_table vnil n) (os ++ [Get k]) =
    Some (rs ++ [RVal (match latest test k (rev os) with Some v => v | None => nf end)]).
  Proof.
    destruct (map_factor nf (os ++ [Get k])) as (rs & E & F). rewrite srun_app in F.
    apply Forall2_app_inv_r in F. destruct F as (r1 & r2 & _ & F2 & ->). cbn [srun sstep fst snd] in F2.
    inversion F2 as [|x y l l' S F3]; subst. inversion F3; subst. exists r1. rewrite E. do 2 f_equal. f_equal.
    rewrite sget_latest in S by assumption. destruct x; cbn in S; congruence.
  Qed.
End Final.

Lemma terminates17 (K V : Type) (hash : K -> nat) (test : K -> K -> bool) (vnil : V) :
  (forall a b, test a b = true -> test b a = true) ->
  (forall a b c, test a b = true -> test b c = true -> test a c = true) ->
  (forall a b, test a b = true -> hash a = hash b) ->
  forall n, 3 <= n -> forall not_found history,
  run hash test over17 vnil not_found (empty_table vnil n) history <> None.
Proof.
  intros S T H n Hn nf os.
  destruct (map_factor hash test vnil S T H 17 10 n ltac:(lia) ltac:(lia) ltac:(lia) nf os) as (rs & E & _).
  change over17 with (over_factor 17 10). rewrite E. discriminate.
Qed.

(** tables of size 1 and 2 fill up, after which looking up an absent key never ends *)
Lemma small_table_hangs :
  run (K := nat) (V := nat) (fun k => k) Nat.eqb over17 0 0 (empty_table 0 1) [Put 5 50; Get 6] = None /\
  run (K := nat) (V := nat) (fun k => k) Nat.eqb over17 0 0 (empty_table 0 2) [Put 5 50; Put 6 60; Get 7] = None.
Proof. vm_compute. auto. Qed.

(** * Queues *)
Section QueueProofs.
  Context {X : Type}.

  (** [cells h p xs l]: the chain starting at [p] holds [xs] and its last cell is [l] *)
  Fixpoint cells (h : nat -> option (X * option nat)) (p : option nat) (ps : list nat) (xs : list X) : Prop :=
    match ps, xs with
    | [], [] => p = None
    | a :: ps', x :: xs' => p = Some a /\ exists n, h a = Some (x, n) /\ cells h n ps' xs'
    | _, _ => False
    end.

  Definition qrep (q : @qstate X) (xs : list X) : Prop :=
    exists ps, cells (heap q) (qcar q) ps xs /\ NoDup ps /\ (forall a, In a ps -> a < next q) /\
      qcdr q = match rev ps with [] => None | l :: _ => Some l end.

  Lemma cells_length h p ps xs : cells h p ps xs -> length ps = length xs.
  Proof.
    revert p xs. induction ps as [|a ps IH]; intros p [|x xs]; cbn [cells]; try tauto.
    intros (_ & n & _ & H). cbn [length]. f_equal. apply (IH n), H.
  Qed.

  Lemma cells_frame h h' p ps xs : cells h p ps xs -> (forall a, In a ps -> h' a = h a) -> cells h' p ps xs.
  Proof.
    revert p xs. induction ps as [|a ps IH]; intros p [|x xs]; cbn [cells]; try tauto.
    intros (-> & n & E & H) Hf. split; [reflexivity|]. exists n. split; [rewrite Hf; [exact E|left; reflexivity]|].
    apply IH; [exact H|]. intros b Hb. apply Hf. right. exact Hb.
  Qed.

  Lemma cells_snoc h p ps l xs : cells h p (ps ++ [l]) xs ->
    exists ys y, xs = ys ++ [y] /\ h l = Some (y, None) /\ length ys = length ps.
  Proof.
    revert p xs. induction ps as [|a ps IH]; intros p [|x xs]; cbn [cells app]; try tauto.
    - intros (_ & n & E & H). destruct xs; [|destruct H]. subst n. exists [], x. auto.
    - intros (_ & n & E & H). destruct (IH n xs H) as (ys & y & -> & E2 & L). exists (x :: ys), y.
      cbn [length]. auto.
  Qed.

  Lemma cells_append h p ps l xs ys y a x : cells h p (ps ++ [l]) xs -> xs = ys ++ [y] -> NoDup (ps ++ [l]) ->
    ~ In a (ps ++ [l]) ->
    cells (setcell (setcell h a (x, None)) l (y, Some a)) p (ps ++ [l; a]) (xs ++ [x]).
  Proof.
    revert p xs ys. induction ps as [|b ps IH]; intros p [|z xs] ys; cbn [cells app]; try tauto.
    - intros (-> & n & E & H) Ey ND Na. destruct xs; [|destruct H]. subst n.
      destruct ys as [|? [|]]; try discriminate. injection Ey as ->. cbn [app cells].
      split; [reflexivity|]. unfold setcell. exists (Some a). rewrite Nat.eqb_refl. split; [reflexivity|].
      split; [reflexivity|]. exists None. destruct (Nat.eqb_spec a l) as [->|]; [destruct Na; left; reflexivity|].
      rewrite Nat.eqb_refl. auto.
    - intros (-> & n & E & H) Ey ND Na. split; [reflexivity|]. inversion ND as [|? ? Nb ND']; subst.
      exists n. split.
      + unfold setcell. destruct (Nat.eqb_spec b l) as [->|]; [destruct Nb; apply in_or_app; right; left; reflexivity|].
        destruct (Nat.eqb_spec b a) as [->|]; [destruct Na; left; reflexivity|]. exact E.
      + destruct ys as [|z' ys]; [destruct xs; [destruct ps; destruct H|discriminate]|].
        injection Ey as _ Ey. apply (IH n xs ys H Ey ND'). intros Hin. apply Na. right. exact Hin.
  Qed.

  Lemma enqueue_ok q xs x : qrep q xs -> exists q', enqueue q x = Some q' /\ qrep q' (xs ++ [x]).
  Proof.
    intros (ps & C & ND & B & L). unfold enqueue.
    destruct ps as [|p0 ps0] using rev_ind.
    - cbn in L. rewrite L. destruct xs; [|destruct C]. eexists. split; [reflexivity|].
      exists [next q]. cbn [heap next qcar qcdr cells rev app]. split; [|split; [|split; [|reflexivity]]].
      + split; [reflexivity|]. exists None. unfold setcell. rewrite Nat.eqb_refl. auto.
      + constructor; [intros []|constructor].
      + intros a [<-|[]]. lia.
    - clear IHps0. rename p0 into l, ps0 into ps. rewrite rev_unit in L. rewrite L.
      destruct (cells_snoc _ _ _ _ _ C) as (ys & y & E & Hl & _). rewrite Hl.
      eexists. split; [reflexivity|]. exists (ps ++ [l; next q]). cbn [heap next qcar qcdr].
      assert (Nn : ~ In (next q) (ps ++ [l])) by (intros Hin; apply B in Hin; lia).
      split; [|split; [|split]].
      + apply (cells_append _ _ _ _ _ ys); assumption.
      + change [l; next q] with ([l] ++ [next q]). rewrite app_assoc. apply NoDup_app_remove_r with (l' := []) || idtac.
        clear - ND Nn. revert ND Nn. generalize (ps ++ [l]). intros k ND Nn.
        induction ND as [|b k Hb ND IH]; cbn [app]; [constructor; [intros []|constructor]|].
        constructor.
        * intros Hin. apply in_app_or in Hin. destruct Hin as [Hin|[<-|[]]]; [exact (Hb Hin)|]. apply Nn. left. reflexivity.
        * apply IH. intros Hin. apply Nn. right. exact Hin.
      + intros a Hin. change [l; next q] with ([l] ++ [next q]) in Hin. rewrite app_assoc in Hin.
        apply in_app_or in Hin. destruct Hin as [Hin|[<-|[]]]; [apply B in Hin; lia|lia].
      + change [l; next q] with ([l] ++ [next q]). rewrite app_assoc, rev_unit. reflexivity.
  Qed.

  Lemma dequeue_ok q xs : qrep q xs -> exists q',
    dequeue q = Some (q', match xs with [] => None | x :: _ => Some x end) /\ qrep q' (tl xs).
  Proof.
    intros (ps & C & ND & B & L). unfold dequeue. destruct ps as [|a ps], xs as [|x xs]; cbn [cells] in C; try tauto.
    - rewrite C. exists q. split; [reflexivity|]. exists []. cbn. auto.
    - destruct C as (-> & n & Ea & C). rewrite Ea. rewrite L. cbn [rev]. inversion ND as [|? ? Na ND']; subst.
      destruct ps as [|b ps].
      + cbn [rev app]. rewrite Nat.eqb_refl. eexists. split; [reflexivity|]. destruct xs; [|destruct C].
        exists []. cbn. split; [reflexivity|]. split; [constructor|]. split; [intros ? []|reflexivity].
      + destruct (exists_last (l := b :: ps) ltac:(discriminate)) as (ps' & l & E). rewrite E, rev_unit. cbn [app].
        destruct (Nat.eqb_spec a l) as [->|_].
        { destruct Na. rewrite E. apply in_or_app. right. left. reflexivity. }
        eexists. split; [reflexivity|]. exists (b :: ps). cbn [heap next qcar qcdr tl].
        split; [exact C|]. split; [exact ND'|]. split; [intros c Hc; apply B; right; exact Hc|].
        rewrite E, rev_unit. reflexivity.
  Qed.

  Lemma qwalk_ok h p ps xs : cells h p ps xs -> forall f, length ps <= f -> qwalk f h p = Some (length xs).
  Proof.
    revert p xs. induction ps as [|a ps IH]; intros p [|x xs]; cbn [cells]; try tauto.
    - intros -> f _. destruct f; reflexivity.
    - intros (-> & n & E & C) f Hf. destruct f as [|f]; [cbn in Hf; lia|]. cbn [qwalk]. rewrite E.
      rewrite (IH n xs C f); [reflexivity|]. cbn in Hf. lia.
  Qed.

  Lemma nodup_bound (ps : list nat) n : NoDup ps -> (forall a, In a ps -> a < n) -> length ps <= n.
  Proof.
    intros ND B. rewrite <- (seq_length n 0). apply NoDup_incl_length; [exact ND|].
    intros a Ha. apply in_seq. apply B in Ha. lia.
  Qed.

  Lemma qlength_ok q xs : qrep q xs -> qlength q = Some (length xs).
  Proof.
    intros (ps & C & ND & B & L). unfold qlength. apply (qwalk_ok _ _ ps); [exact C|].
    apply nodup_bound; assumption.
  Qed.

  Lemma qdrop_ok n : forall q xs, qrep q xs -> exists q', qdrop n q = Some q' /\ qrep q' (skipn n xs).
  Proof.
    induction n as [|n IH]; intros q xs H; cbn [qdrop].
    - exists q. auto.
    - destruct (dequeue_ok q xs H) as (q' & -> & H'). destruct (IH q' (tl xs) H') as (q2 & E & H2).
      exists q2. split; [exact E|]. destruct xs; [rewrite skipn_nil in *; exact H2|exact H2].
  Qed.

  (** the abstract queue: a list *)
  Definition sqstep (xs : list X) (o : qop) : list X * qres :=
    match o with
    | Enq x => (xs ++ [x], QUnit)
    | Deq => (tl xs, QVal (match xs with [] => None | x :: _ => Some x end))
    | QEmpty => (xs, QBool (match xs with [] => true | _ => false end))
    | QFirst => (xs, QVal (match xs with [] => None | x :: _ => Some x end))
    | QLast => (xs, QVal (match rev xs with [] => None | x :: _ => Some x end))
    | QLength => (xs, QNat (length xs))
    | QTrim s => (skipn (length xs - s) xs, QUnit)
    end.

  Fixpoint sqrun (xs : list X) (os : list qop) : list qres :=
    match os with
    | [] => []
    | o :: r => snd (sqstep xs o) :: sqrun (fst (sqstep xs o)) r
    end.

  Theorem qrun_ok os : forall q xs, qrep q xs -> qrun q os = Some (sqrun xs os).
  Proof.
    induction os as [|o os IH]; intros q xs H; [reflexivity|]. cbn [qrun sqrun].
    assert (G : exists q', qstep q o = Some (q', snd (sqstep xs o)) /\ qrep q' (fst (sqstep xs o))).
    { destruct o as [x| | | | | |s]; cbn [qstep sqstep fst snd].
      - destruct (enqueue_ok q xs x H) as (q' & -> & H'). exists q'. auto.
      - destruct (dequeue_ok q xs H) as (q' & -> & H'). exists q'. auto.
      - exists q. split; [|exact H]. do 3 f_equal. unfold qempty. destruct H as (ps & C & _).
        destruct ps, xs; cbn [cells] in C; try tauto; [rewrite C|destruct C as (-> & _)]; reflexivity.
      - exists q. split; [|exact H]. do 3 f_equal. unfold qfirst. destruct H as (ps & C & _).
        destruct ps, xs; cbn [cells] in C; try tauto; [rewrite C; reflexivity|].
        destruct C as (-> & m & -> & _). reflexivity.
      - exists q. split; [|exact H]. do 3 f_equal. unfold qlast. destruct H as (ps & C & _ & _ & L). rewrite L.
        destruct ps as [|l ps _] using rev_ind.
        + destruct xs; [reflexivity|destruct C].
        + rewrite rev_unit. destruct (cells_snoc _ _ _ _ _ C) as (ys & y & -> & E & _). rewrite E, rev_unit. reflexivity.
      - rewrite (qlength_ok q xs H). exists q. auto.
      - unfold trim. rewrite (qlength_ok q xs H). destruct (qdrop_ok (length xs - s) q xs H) as (q' & -> & H').
        exists q'. auto. }
    destruct G as (q' & -> & H'). rewrite (IH q' _ H'). reflexivity.
  Qed.

  Lemma qinit_ok : qrep qinit [].
  Proof. exists []. cbn. split; [reflexivity|]. split; [constructor|]. split; [intros ? []|reflexivity]. Qed.

  Theorem queue_fifo os : qrun qinit os = Some (sqrun [] os).
  Proof. apply qrun_ok, qinit_ok. Qed.

  (** histories of enqueues and dequeues, what went in and what came out *)
  Definition io (o : @qop X) : Prop := match o with Enq _ | Deq => True | _ => False end.
  Definition enqueued (os : list (@qop X)) : list X := flat_map (fun o => match o with Enq x => [x] | _ => [] end) os.
  Definition dequeued (rs : list (@qres X)) : list X :=
    flat_map (fun r => match r with QVal (Some x) => [x] | _ => [] end) rs.

  Lemma sq_conserve os : Forall io os -> forall xs, exists rest, xs ++ enqueued os = dequeued (sqrun xs os) ++ rest /\
    rest = fold_left (fun ys o => fst (sqstep ys o)) os xs.
  Proof.
    induction 1 as [|o os Ho H IH]; intros xs.
    - exists xs. cbn. rewrite app_nil_r. auto.
    - destruct o as [x| | | | | |]; try destruct Ho; cbn [sqrun enqueued dequeued flat_map fold_left sqstep fst snd app].
      + destruct (IH (xs ++ [x])) as (rest & E & Er). exists rest. split; [|exact Er].
        fold (enqueued os). fold (dequeued (sqrun (xs ++ [x]) os)). rewrite <- E, <- app_assoc. reflexivity.
      + destruct (IH (tl xs)) as (rest & E & Er). exists rest. split; [|exact Er].
        fold (enqueued os). fold (dequeued (sqrun (tl xs) os)). destruct xs as [|x xs]; cbn [tl app] in *.
        * rewrite <- E. reflexivity.
        * rewrite <- E. reflexivity.
  Qed.

  Lemma drained xs : forall n, length xs <= n -> fold_left (fun ys o => fst (sqstep ys o)) (repeat Deq n) xs = [].
  Proof.
    intros n. revert xs. induction n as [|n IH]; intros xs H.
    - destruct xs; [reflexivity|cbn in H; lia].
    - cbn [repeat fold_left sqstep fst]. apply IH. destruct xs; cbn in *; lia.
  Qed.

  Theorem queue_conserves os : Forall io os ->
    (exists rs rest, qrun qinit os = Some rs /\ enqueued os = dequeued rs ++ rest) /\
    (exists rs, qrun qinit (os ++ repeat Deq (length (enqueued os))) = Some rs /\ dequeued rs = enqueued os).
  Proof.
    intros H. split.
    - destruct (sq_conserve os H []) as (rest & E & _). exists (sqrun [] os), rest. split; [apply queue_fifo|exact E].
    - set (n := length (enqueued os)).
      assert (H2 : Forall io (os ++ repeat Deq n)).
      { apply Forall_app. split; [exact H|]. apply Forall_forall. intros o Ho. apply repeat_spec in Ho. subst. exact I. }
      destruct (sq_conserve _ H2 []) as (rest & E & Er). eexists. split; [apply queue_fifo|].
      cbn [app] in E. assert (Ee : enqueued (os ++ repeat Deq n) = enqueued os).
      { unfold enqueued. rewrite flat_map_app. rewrite <- app_nil_r. f_equal.
        clear. induction n; [reflexivity|exact IHn]. }
      rewrite Ee in E. rewrite fold_left_app in Er.
      destruct (sq_conserve os H []) as (rest0 & E0 & Er0). rewrite <- Er0 in Er.
      rewrite drained in Er.
      + subst rest. rewrite app_nil_r in E. symmetry. exact E.
      + unfold n. cbn [app] in E0. rewrite E0, app_length. lia.
  Qed.
End QueueProofs.
