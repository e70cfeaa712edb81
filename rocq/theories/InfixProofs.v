(** Facts on forms, on the list of the shared forms and on its reconstruction. *)
From Coq Require Import ZArith List Bool Arith Lia.
From Verif Require Import InfixModel InfixSpec.
Import ListNotations.
Open Scope nat_scope.

Lemma form_rec' (P : form -> Prop) :
  (forall s, P (FSym s)) -> (forall z, P (FNum z)) -> (forall n, P (FGen n)) ->
  (forall h l, Forall P l -> P (FApp h l)) -> (forall f n, P f -> P (FTemp f n)) -> forall f, P f.
Proof.
  intros H1 H2 H3 H4 H5. fix IH 1. intros [s | z | n | h l | f n].
  - apply H1.
  - apply H2.
  - apply H3.
  - apply H4. induction l as [|x l IHl]; constructor; [apply IH | exact IHl].
  - apply H5. apply IH.
Qed.
Lemma relop_eqb_eq a b : relop_eqb a b = true <-> a = b.
Proof. destruct a, b; cbn; split; congruence. Qed.
Lemma head_eqb_eq a b : head_eqb a b = true <-> a = b.
Proof.
  destruct a, b; cbn; try (split; congruence).
  - rewrite relop_eqb_eq. split; congruence.
  - rewrite Nat.eqb_eq. split; congruence.
Qed.
Lemma form_eqb_eq a : forall b, form_eqb a b = true <-> a = b.
Proof.
  induction a as [s | z | n | h l IH | f n IH] using form_rec'; intros [s' | z' | n' | h' l' | f' n']; cbn [form_eqb]; try (split; congruence).
  - rewrite Nat.eqb_eq. split; congruence.
  - rewrite Z.eqb_eq. split; congruence.
  - rewrite Nat.eqb_eq. split; congruence.
  - rewrite andb_true_iff, head_eqb_eq.
    assert (E : (fix go l m := match l, m with [], [] => true | x :: l, y :: m => form_eqb x y && go l m | _, _ => false end) l l' = true <-> l = l').
    { revert l'. induction IH as [|x l Hx Hl IHl]; intros [|y l']; try (split; congruence).
      rewrite andb_true_iff, IHl, Hx. split; [intros [-> ->] | intros E; injection E as -> ->]; auto. }
    rewrite E. split; [intros [-> ->] | intros G; injection G as -> ->]; auto.
  - rewrite andb_true_iff, IH, Nat.eqb_eq. split; [intros [-> ->] | intros G; injection G as -> ->]; auto.
Qed.

(** counts *)
Definition count (st : alist) (i : nat) : nat := match nth_error st i with Some (_, c) => c | None => 0 end.
Definition wf (st : alist) : Prop :=
  forall i f c, nth_error st i = Some (f, c) -> 1 <= c /\ forall w, In w (gens f) -> w < i /\ c <= count st w.
Definition extends (st st' : alist) : Prop :=
  length st <= length st' /\ forall i f c, nth_error st i = Some (f, c) -> exists c', nth_error st' i = Some (f, c').
Definition uses (st : alist) (i w : nat) : Prop := match nth_error st i with None => True | Some (f, _) => In w (gens f) end.
Definition Step (st : alist) (gs : list nat) (st' : alist) : Prop :=
  extends st st' /\
  forall i w, uses st' i w ->
    count st w + count st' i <= count st' w + count st i /\
    (In w gs -> count st w + count st' i + 1 <= count st' w + count st i).

Lemma extends_trans a b c : extends a b -> extends b c -> extends a c.
Proof.
  intros [L1 E1] [L2 E2]. split; [lia|]. intros i f k H. destruct (E1 _ _ _ H) as [c1 H1]. apply (E2 _ _ _ H1).
Qed.
Lemma uses_back a b i w : extends a b -> uses b i w -> uses a i w.
Proof.
  intros [_ E] H. unfold uses in *. destruct (nth_error a i) as [[f c]|] eqn:Ea; [|auto].
  destruct (E _ _ _ Ea) as [c' E']. rewrite E' in H. exact H.
Qed.
Lemma Step_trans a b c gs hs : Step a gs b -> Step b hs c -> Step a (gs ++ hs) c.
Proof.
  intros [E1 H1] [E2 H2]. split; [eapply extends_trans; eauto|].
  intros i w U. specialize (H2 i w U) as [P2 Q2]. specialize (H1 i w (uses_back _ _ _ _ E2 U)) as [P1 Q1].
  split; [lia|]. intros M. apply in_app_iff in M. destruct M as [M | M]; [specialize (Q1 M) | specialize (Q2 M)]; lia.
Qed.
Lemma Step_refl a : Step a [] a.
Proof. split; [split; [lia|]; intros i f c H; eauto|]. intros i w _. split; [lia | intros []]. Qed.
Lemma Step_sub a b gs hs : (forall w, In w hs -> In w gs) -> Step a gs b -> Step a hs b.
Proof. intros S [E H]. split; [exact E|]. intros i w U. specialize (H i w U) as [P Q]. split; [lia|]. auto. Qed.

Lemma letvar_at_spec f : forall st k j st', letvar_at k st f = (j, st') ->
  (exists c, k <= j /\ nth_error st (j - k) = Some (f, c) /\ length st' = length st /\
     forall i, nth_error st' i = if i =? j - k then Some (f, S c) else nth_error st i) \/
  (j = k + length st /\ st' = st ++ [(f, 1)]).
Proof.
  induction st as [|[g c] st IH]; intros k j st' E; cbn [letvar_at] in E.
  - injection E as <- <-. right. cbn. split; [lia | reflexivity].
  - destruct (form_eqb g f) eqn:G.
    + apply form_eqb_eq in G. subst g. injection E as <- <-. left. exists c.
      replace (k - k) with 0 by lia. split; [lia|]. split; [reflexivity|]. split; [reflexivity|].
      intros [|i]; reflexivity.
    + destruct (letvar_at (S k) st f) as [j0 r] eqn:R. injection E as <- <-.
      destruct (IH _ _ _ R) as [[c' [L [N0 [Ln H]]]] | [-> ->]].
      * left. exists c'. replace (j0 - k) with (S (j0 - S k)) by lia. split; [lia|]. split; [exact N0|].
        split; [cbn [length]; lia|]. intros [|i]; [reflexivity|]. cbn [nth_error]. rewrite H. reflexivity.
      * right. cbn [length app]. split; [lia | reflexivity].
Qed.

Section VALUES.
  Variable A : arithmetic.
  Definition consistent (r : nat -> N A) (st : alist) : Prop := forall i f c, nth_error st i = Some (f, c) -> r i = eval A r f.
  Definition Goes (st0 : alist) (fs : list form) (st : alist) (xs : list (N A)) : Prop :=
    wf st0 /\ wf st /\ Step st0 (flat_map gens fs) st /\ (forall w, In w (flat_map gens fs) -> w < length st) /\
    forall r, consistent r st -> map (eval A r) fs = xs.

  Lemma consistent_back st st' r : extends st st' -> consistent r st' -> consistent r st.
  Proof. intros [_ E] C i f c H. destruct (E _ _ _ H) as [c' H']. apply (C _ _ _ H'). Qed.
  Lemma Goes_nil st : wf st -> Goes st [] st [].
  Proof. intros W. split; [exact W|]. split; [exact W|]. split; [apply Step_refl|]. split; [intros w [] | reflexivity]. Qed.
  Lemma Goes_app a b c fs gs xs ys : Goes a fs b xs -> Goes b gs c ys -> Goes a (fs ++ gs) c (xs ++ ys).
  Proof.
    intros (W01 & W1 & S1 & L1 & V1) (W02 & W2 & S2 & L2 & V2). unfold Goes. rewrite flat_map_app. split; [exact W01|]. split; [exact W2|].
    split; [eapply Step_trans; eauto|]. split.
    - intros w M. apply in_app_iff in M. destruct M as [M | M]; [|auto]. destruct S2 as [[Ln _] _]. specialize (L1 _ M). lia.
    - intros r C. rewrite map_app, V2 by exact C. f_equal. apply V1. eapply consistent_back; [apply S2 | exact C].
  Qed.
  Lemma Goes_one a b f g x y : (forall w, In w (gens g) -> In w (flat_map gens f)) ->
    (forall r, map (eval A r) f = x -> eval A r g = y) -> Goes a f b x -> Goes a [g] b [y].
  Proof.
    intros G E (W0 & W & St & L & V). unfold Goes. cbn [flat_map map]. rewrite app_nil_r. split; [exact W0|]. split; [exact W|].
    split; [eapply Step_sub; [|exact St]; exact G|]. split; [auto|]. intros r C. f_equal. auto.
  Qed.
  Lemma Goes_atom st f x : wf st -> gens f = [] -> (forall r, eval A r f = x) -> Goes st [f] st [x].
  Proof. intros W G E. eapply Goes_one; [| | apply Goes_nil; exact W]; [rewrite G; intros w [] | auto]. Qed.
  Lemma Goes_app_form a b h fs xs : Goes a fs b xs -> Goes a [FApp h fs] b [apply A h xs].
  Proof. intros G. eapply Goes_one; [| | exact G]; [cbn [gens]; auto | intros r E; cbn [eval]; rewrite E; reflexivity]. Qed.
  Lemma Goes_repeat a b f x k : Goes a [f] b [x] -> Goes a (repeat f k) b (repeat x k).
  Proof.
    intros (W0 & W & St & L & V).
    assert (G : forall w, In w (flat_map gens (repeat f k)) -> In w (flat_map gens [f])).
    { intros w M. apply in_flat_map in M. destruct M as (g & M & M'). apply repeat_spec in M. subst g. cbn. rewrite app_nil_r. exact M'. }
    split; [exact W0|]. split; [exact W|]. split; [eapply Step_sub; eauto|]. split; [auto|]. intros r C. specialize (V r C). cbn in V. injection V as V.
    clear - V. induction k; cbn; [reflexivity|]. rewrite V, IHk. reflexivity.
  Qed.

  Lemma count_app st f i : count (st ++ [(f, 1)]) i = if i =? length st then 1 else count st i.
  Proof.
    unfold count. destruct (i =? length st) eqn:E.
    - apply Nat.eqb_eq in E. subst i. rewrite nth_error_app2, Nat.sub_diag by lia. reflexivity.
    - apply Nat.eqb_neq in E. destruct (Nat.lt_ge_cases i (length st)) as [L | L].
      + rewrite nth_error_app1 by exact L. reflexivity.
      + rewrite (proj2 (nth_error_None _ _)) by (rewrite app_length; cbn; lia). rewrite (proj2 (nth_error_None _ _)) by lia. reflexivity.
  Qed.
  Lemma count_out st i : length st <= i -> count st i = 0.
  Proof. intros L. unfold count. rewrite (proj2 (nth_error_None _ _)) by lia. reflexivity. Qed.

  Lemma letvar_goes st0 f st x : Goes st0 [f] st [x] -> exists v st', letvar st f = (v, st') /\ atom v = true /\ (forall k, v <> FNum k) /\ Goes st0 [v] st' [x].
  Proof.
    intros (W0 & W & St & L & V). unfold letvar. destruct (letvar_at 0 st f) as [j st'] eqn:E.
    exists (FGen j), st'. split; [reflexivity|]. split; [reflexivity|]. split; [discriminate|].
    cbn [flat_map] in St, L. rewrite app_nil_r in St, L. destruct St as [Ex Sl].
    destruct (letvar_at_spec _ _ _ _ _ E) as [(c & _ & Nj & Ln & H) | [-> ->]].
    - replace (j - 0) with j in * by lia.
      assert (Cn : forall i, count st' i = if i =? j then S c else count st i).
      { intros i. unfold count. rewrite H. destruct (i =? j); reflexivity. }
      assert (Cj : count st j = c) by (unfold count; rewrite Nj; reflexivity).
      assert (Us : forall i w, uses st' i w -> uses st i w).
      { intros i w. unfold uses. rewrite H. destruct (i =? j) eqn:Ej; [|auto]. apply Nat.eqb_eq in Ej. subst i. rewrite Nj. auto. }
      assert (Ex' : extends st st').
      { split; [lia|]. intros i g d Hi. rewrite H. destruct (i =? j) eqn:Ej; [|eauto]. apply Nat.eqb_eq in Ej. subst i. rewrite Nj in Hi.
        injection Hi as <- <-. eauto. }
      assert (Z0 : forall w, In w (gens f) -> count st0 j <= count st0 w).
      { intros w M. destruct (nth_error st0 j) as [[g0 c0]|] eqn:E0.
        - destruct Ex as [_ Ex]. destruct (Ex _ _ _ E0) as [c1 E1]. rewrite Nj in E1. injection E1 as <- <-.
          destruct (W0 _ _ _ E0) as [_ Q0]. specialize (Q0 _ M) as [_ Q0]. unfold count at 1. rewrite E0. exact Q0.
        - unfold count at 1. rewrite E0. lia. }
      split; [exact W0|]. split; [|split; [|split]].
      + intros i g d Hi. rewrite H in Hi. destruct (i =? j) eqn:Ej.
        * apply Nat.eqb_eq in Ej. subst i. injection Hi as <- <-. split; [lia|]. intros w M.
          destruct (W _ _ _ Nj) as [_ Wj]. specialize (Wj _ M) as [Lw Cw]. split; [exact Lw|]. rewrite Cn.
          destruct (w =? j) eqn:Ew; [lia|].
          specialize (Sl j w). unfold uses in Sl. rewrite Nj in Sl. specialize (Sl M) as [_ Sl]. specialize (Sl M).
          rewrite Cj in Sl. specialize (Z0 _ M). lia.
        * destruct (W _ _ _ Hi) as [P Q]. split; [exact P|]. intros w M. specialize (Q _ M) as [Lw Cw]. split; [exact Lw|].
          rewrite Cn. destruct (w =? j) eqn:Ew; [|exact Cw]. apply Nat.eqb_eq in Ew. subst w. lia.
      + cbn [flat_map gens app]. split; [eapply extends_trans; eauto|]. intros i w U. specialize (Us _ _ U).
        assert (NW : w = i -> i = j -> False).
        { intros -> ->. unfold uses in Us. rewrite Nj in Us. destruct (W _ _ _ Nj) as [_ Q]. specialize (Q _ Us) as [Q _]. lia. }
        pose proof (Sl _ _ Us) as [P Q]. rewrite !Cn.
        destruct (Nat.eqb_spec i j) as [Ei | Ei]; destruct (Nat.eqb_spec w j) as [Ew | Ew].
        * exfalso. apply NW; congruence.
        * subst i. unfold uses in Us. rewrite Nj in Us. specialize (Q Us). split; [lia|]. intros [<- | []]. congruence.
        * subst w. split; [lia|]. lia.
        * split; [lia|]. intros [<- | []]. congruence.
      + cbn [flat_map gens app]. intros w [<- | []]. rewrite Ln. apply nth_error_Some. rewrite Nj. discriminate.
      + intros r C. cbn [map eval]. assert (Cs : consistent r st) by (eapply consistent_back; eauto).
        specialize (V r Cs). cbn [map] in V. rewrite (Cs _ _ _ Nj). exact V.
    - cbn [plus] in *.
      assert (Cn := count_app st f).
      assert (Ln : length (st ++ [(f, 1)]) = S (length st)) by (rewrite app_length; cbn; lia).
      assert (Ex' : extends st (st ++ [(f, 1)])).
      { split; [lia|]. intros i g d Hi. exists d. rewrite nth_error_app1; [exact Hi|]. apply nth_error_Some. congruence. }
      assert (Nl : nth_error (st ++ [(f, 1)]) (length st) = Some (f, 1)) by (rewrite nth_error_app2, Nat.sub_diag by lia; reflexivity).
      assert (Old : forall i, i < length st -> nth_error (st ++ [(f, 1)]) i = nth_error st i) by (intros i Hi; apply nth_error_app1; exact Hi).
      assert (Pres : forall w, w < length st -> 1 <= count st w).
      { intros w Hw. unfold count. destruct (nth_error st w) as [[g d]|] eqn:Ew; [apply (W _ _ _ Ew)|]. apply nth_error_None in Ew. lia. }
      assert (L0 : length st0 <= length st) by apply Ex.
      split; [exact W0|]. split; [|split; [|split]].
      + intros i g d Hi.
        assert (Li : i < S (length st)) by (rewrite <- Ln; apply nth_error_Some; congruence).
        destruct (Nat.eq_dec i (length st)) as [-> | Ne].
        * rewrite Nl in Hi. injection Hi as <- <-. split; [lia|]. intros w M. specialize (L _ M). split; [exact L|].
          rewrite Cn. destruct (w =? length st); [lia | apply Pres; exact L].
        * rewrite Old in Hi by lia. destruct (W _ _ _ Hi) as [P Q]. split; [exact P|]. intros w M. specialize (Q _ M) as [Q1 Q2].
          split; [exact Q1|]. rewrite Cn. destruct (w =? length st) eqn:Ew; [apply Nat.eqb_eq in Ew; lia | exact Q2].
      + cbn [flat_map gens app]. split; [eapply extends_trans; eauto|]. intros i w U.
        pose proof (Sl _ _ (uses_back _ _ _ _ Ex' U)) as [P Q]. rewrite !Cn.
        destruct (Nat.eqb_spec i (length st)) as [Ei | Ei]; destruct (Nat.eqb_spec w (length st)) as [Ew | Ew]; try subst i; try subst w.
        * exfalso. unfold uses in U. rewrite Nl in U. specialize (L _ U). lia.
        * unfold uses in U. rewrite Nl in U. specialize (Q U). rewrite (count_out st (length st)) in * by lia. rewrite (count_out st0 (length st)) in * by lia.
          split; [lia|]. intros [E1 | []]. congruence.
        * assert (Li : length st < i).
          { destruct (Nat.lt_ge_cases i (length st)) as [Li | Li]; [|lia]. exfalso. unfold uses in U. rewrite (Old _ Li) in U.
            destruct (nth_error st i) as [[g d]|] eqn:Eg; [|apply nth_error_None in Eg; lia].
            destruct (W _ _ _ Eg) as [_ Q']. specialize (Q' _ U) as [Q' _]. lia. }
          rewrite (count_out st i), (count_out st0 i), (count_out st0 (length st)) by lia. lia.
        * split; [lia|]. intros [E1 | []]. congruence.
      + cbn [flat_map gens app]. intros w [<- | []]. lia.
      + intros r C. cbn [map eval]. assert (Cs : consistent r st) by (eapply consistent_back; eauto).
        specialize (V r Cs). cbn [map] in V. rewrite (C _ _ _ Nl). exact V.
  Qed.

  (** * consistent values, and the reconstruction *)
  Lemma eval_ext f : forall r r', (forall w, In w (gens f) -> r w = r' w) -> eval A r f = eval A r' f.
  Proof.
    induction f as [s | z | n | h l IH | f n IH] using form_rec'; intros r r' E; cbn [eval]; try reflexivity.
    - apply E. left. reflexivity.
    - f_equal. apply map_ext_in. intros g M. rewrite Forall_forall in IH. apply (IH g M). intros w Mw. apply E. cbn [gens]. apply in_flat_map. eauto.
    - rewrite (IH r r'); [reflexivity | exact E].
  Qed.
  Lemma eval_subst r v g f : r v = eval A r g -> eval A r (subst v g f) = eval A r f.
  Proof.
    intros E. induction f as [s | z | n | h l IH | f n IH] using form_rec'; cbn [subst eval]; try reflexivity.
    - destruct (n =? v) eqn:Ev; [|reflexivity]. apply Nat.eqb_eq in Ev. subst n. symmetry. exact E.
    - f_equal. rewrite map_map. apply map_ext_in. intros x M. rewrite Forall_forall in IH. apply (IH x M).
    - rewrite IH. reflexivity.
  Qed.
  Lemma gens_subst v g f w : In w (gens (subst v g f)) -> (In w (gens f) /\ w <> v) \/ In w (gens g).
  Proof.
    induction f as [s | z | n | h l IH | f n IH] using form_rec'; cbn [subst gens]; intros M; try (exfalso; exact M).
    - destruct (n =? v) eqn:Ev; [right; exact M|]. apply Nat.eqb_neq in Ev. destruct M as [<- | []]. left. split; [left; reflexivity | exact Ev].
    - apply in_flat_map in M. destruct M as (y & My & Mw). apply in_map_iff in My. destruct My as (x & <- & Mx). rewrite Forall_forall in IH.
      destruct (IH x Mx Mw) as [[M1 M2] | M1]; [left | right; exact M1]. split; [|exact M2]. apply in_flat_map. eauto.
    - auto.
  Qed.

  Lemma exists_consistent st : wf st -> exists r, consistent r st.
  Proof.
    induction st as [|[f c] st IH] using rev_ind; intros W.
    - exists (fun _ => one A). intros [|i] f c H; discriminate H.
    - assert (Ln : length (st ++ [(f, c)]) = S (length st)) by (rewrite app_length; cbn; lia).
      assert (Nl : nth_error (st ++ [(f, c)]) (length st) = Some (f, c)) by (rewrite nth_error_app2, Nat.sub_diag by lia; reflexivity).
      assert (Old : forall i, i < length st -> nth_error (st ++ [(f, c)]) i = nth_error st i) by (intros i Hi; apply nth_error_app1; exact Hi).
      destruct IH as [r C].
      { intros i g d H. assert (Li : i < length st) by (apply nth_error_Some; congruence).
        rewrite <- (Old _ Li) in H. destruct (W _ _ _ H) as [P Q]. split; [exact P|]. intros w M. specialize (Q _ M) as [Q1 Q2]. split; [exact Q1|].
        unfold count in *. rewrite Old in Q2 by lia. exact Q2. }
      exists (update A r (length st) (eval A r f)). intros i g d H.
      assert (Li : i < S (length st)) by (rewrite <- Ln; apply nth_error_Some; congruence).
      destruct (W _ _ _ H) as [_ Q].
      assert (E : eval A (update A r (length st) (eval A r f)) g = eval A r g).
      { apply eval_ext. intros w M. specialize (Q _ M) as [Q _]. unfold update. destruct (w =? length st) eqn:Ew; [apply Nat.eqb_eq in Ew; lia | reflexivity]. }
      rewrite E. unfold update. destruct (i =? length st) eqn:Ei.
      + apply Nat.eqb_eq in Ei. subst i. rewrite Nl in H. injection H as -> ->. reflexivity.
      + apply Nat.eqb_neq in Ei. rewrite Old in H by lia. apply (C _ _ _ H).
  Qed.

  (** pairs that are in order: each form uses only what is bound before *)
  Lemma reconstruct_spec r : forall st exp pairs full,
    wf full -> consistent r full -> (exists t, full = rev st ++ t) ->
    (forall w, In w (gens exp) -> w < length st \/ (1 < count full w /\ length st <= w)) ->
    forall P, (forall names r', (forall w, In w names <-> w < length st /\ 1 < count full w) -> (forall w, In w names -> r' w = r w) ->
      forall body, (forall w, In w (gens body) -> 1 < count full w) -> (forall w, 1 < count full w -> w < length full) ->
      eval_let A r' pairs body = eval A r body /\ bound names pairs body) ->
    P = reconstruct st exp pairs ->
    forall r0, eval_let A r0 (fst P) (snd P) = eval A r exp /\ bound [] (fst P) (snd P).
  Proof.
    induction st as [|[f c] st IH]; intros exp pairs full W C [t Ft] G P K -> r0; cbn [reconstruct].
    - cbn [fst snd]. cbn [length] in K, G. apply K; [intros w; split; [intros [] | lia] | intros w [] | | ].
      + intros w M. destruct (G _ M) as [H | [H _]]; [lia | exact H].
      + intros w H. destruct (Nat.lt_ge_cases w (length full)) as [L | L]; [exact L|]. rewrite count_out in H by exact L. lia.
    - cbn [rev] in Ft. rewrite <- app_assoc in Ft. cbn [app] in Ft.
      assert (Nf : nth_error full (length st) = Some (f, c)).
      { rewrite Ft, nth_error_app2 by (rewrite rev_length; lia). rewrite rev_length, Nat.sub_diag. reflexivity. }
      assert (Cc : count full (length st) = c) by (unfold count; rewrite Nf; reflexivity).
      destruct (W _ _ _ Nf) as [_ Q]. cbn [length] in *.
      destruct (1 <? c) eqn:Ec.
      + apply Nat.ltb_lt in Ec. apply (IH exp ((length st, f) :: pairs) full W C); [eexists; exact Ft | | | reflexivity].
        * intros w M. destruct (G _ M) as [H | [H1 H2]]; [|right; lia].
          destruct (Nat.eq_dec w (length st)) as [-> | Ne]; [right; lia | left; lia].
        * intros names r' Hn Hr body Hb Hall. cbn [eval_let bound].
          assert (Ef : eval A r' f = r (length st)).
          { rewrite (C _ _ _ Nf). apply eval_ext. intros w M. apply Hr, Hn. specialize (Q _ M). lia. }
          destruct (K (length st :: names) (update A r' (length st) (eval A r' f))) with (body := body) as [K1 K2]; auto.
          -- intros w. cbn [In]. rewrite Hn. split; [intros [<- | H]; lia|]. intros H. destruct (Nat.eq_dec w (length st)); [left; lia | right; lia].
          -- intros w [<- | M]; unfold update; [rewrite Nat.eqb_refl; exact Ef|].
             assert (w < length st) by (apply Hn in M; lia). destruct (w =? length st) eqn:Ew; [apply Nat.eqb_eq in Ew; lia | auto].
          -- split; [exact K1|]. split; [|exact K2]. intros m M. apply Hn. specialize (Q _ M). lia.
      + apply Nat.ltb_ge in Ec. specialize (IH (subst (length st) f exp) pairs full W C). rewrite eval_subst in IH by (apply (C _ _ _ Nf)).
        apply (IH (ex_intro _ _ Ft)); [| | reflexivity].
        * intros w M. apply gens_subst in M. destruct M as [[M Ne] | M].
          -- destruct (G _ M) as [H | [H1 H2]]; [left; lia | right; lia].
          -- specialize (Q _ M). left. lia.
        * intros names r' Hn Hr body Hb Hall. apply K; auto. intros w. rewrite Hn. split; intros H; [lia|].
          destruct (Nat.eq_dec w (length st)) as [-> | Ne]; lia.
  Qed.
  Lemma reconstruct_value st0 exp st x r0 : Goes st0 [exp] st [x] ->
    let '(pairs, body) := reconstruct (rev st) exp [] in eval_let A r0 pairs body = x /\ bound [] pairs body.
  Proof.
    intros (_ & W & _ & L & V). destruct (exists_consistent st W) as [r C].
    assert (E : eval A r exp = x) by (specialize (V r C); cbn in V; congruence).
    cbn [flat_map] in L. rewrite app_nil_r in L.
    pose proof (reconstruct_spec r (rev st) exp [] st W C) as H. rewrite rev_involutive, rev_length in H.
    destruct (reconstruct (rev st) exp []) as [pairs body]. rewrite <- E.
    apply (H (ex_intro _ [] (eq_sym (app_nil_r st)))) with (P := (pairs, body)); [auto | | reflexivity].
    intros names r' Hn Hr body' Hb Hall. cbn [eval_let bound].
    assert (B : forall w, In w (gens body') -> In w names) by (intros w M; apply Hn; auto).
    split; [apply eval_ext; auto | exact B].
  Qed.
End VALUES.
