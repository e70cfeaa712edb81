(** Specification and proofs for C20 and C21. *)
From Verif Require Export EqualModel.

(** ** Specification: the tree a word stands for.  Symbols are identified by their address, every other object by its
    class, element type, size, components and data words. *)
Inductive tree := TNum (z : Z) | TSym (a : nat) | TNode (cix : nat) (e : elt) (size : nat) (children : list tree) (raw : list Z).

Fixpoint unfold_all (u : word -> option tree) (ws : list word) : option (list tree) :=
  match ws with
  | [] => Some []
  | w :: r => match u w, unfold_all u r with Some t, Some ts => Some (t :: ts) | _, _ => None end
  end.
Fixpoint unfold (depth : nat) (C : classes) (h : store) (w : word) : option tree :=
  match depth with
  | O => None
  | S d => match w with
           | WNum z => Some (TNum z)
           | WPtr a =>
               let o := h a in
               if is_sym C (o_cix o) then Some (TSym a) else
               match o_elt o with
               | FIXED => match unfold_all (unfold d C h) (firstn (objsize C (o_cix o)) (o_slots o)) with
                          | Some ts => Some (TNode (o_cix o) FIXED 0 ts []) | None => None end
               | POINTER => match unfold_all (unfold d C h) (firstn (o_size o) (o_slots o)) with
                            | Some ts => Some (TNode (o_cix o) POINTER (o_size o) ts []) | None => None end
               | e => Some (TNode (o_cix o) e (o_size o) [] (firstn (nwords e (o_size o)) (o_raw o)))
               end
           end
  end.
(** the object reached is a finite tree *)
Definition acyclic (C : classes) (h : store) (x : word) : Prop := exists d t, unfold d C h x = Some t.
Definition stands_for (C : classes) (h : store) (x : word) (t : tree) : Prop := exists d, unfold d C h x = Some t.
(** every object has the slots and data words its class and size call for *)
Definition wf_store (C : classes) (h : store) : Prop := forall a,
  (o_elt (h a) = FIXED -> length (o_slots (h a)) = objsize C (o_cix (h a))) /\
  (o_elt (h a) = POINTER -> length (o_slots (h a)) = o_size (h a)) /\
  (nwords (o_elt (h a)) (o_size (h a)) <= length (o_raw (h a)) \/ o_elt (h a) = FIXED \/ o_elt (h a) = POINTER).
Definition EQUAL (C : classes) (h : store) (x y : word) (b : bool) : Prop := exists fuel, equal fuel C h x y = Ret b.

Lemma word_eqb_eq : forall x y, word_eqb x y = true <-> x = y.
Proof.
  intros [a|a] [b|b]; cbn; split; intro H; try discriminate.
  - apply Z.eqb_eq in H. congruence.
  - injection H as ->. apply Z.eqb_refl.
  - apply Nat.eqb_eq in H. congruence.
  - injection H as ->. apply Nat.eqb_refl.
Qed.
Lemma elt_eqb_eq : forall x y, elt_eqb x y = true <-> x = y.
Proof. intros [] []; cbn; split; intro H; congruence. Qed.

Section S.
Context (C : classes) (h : store).

Lemma unfold_all_mono : forall (u v : word -> option tree) ws ts, (forall w t, u w = Some t -> v w = Some t) -> unfold_all u ws = Some ts -> unfold_all v ws = Some ts.
Proof.
  intros u v. induction ws as [|w r IH]; intros ts M H; cbn in *; [exact H|].
  destruct (u w) as [t|] eqn:E; [|discriminate]. rewrite (M w t E). destruct (unfold_all u r) as [ts'|]; [|discriminate]. rewrite (IH ts' M eq_refl). exact H.
Qed.
Lemma unfold_S : forall d w t, unfold d C h w = Some t -> unfold (S d) C h w = Some t.
Proof.
  induction d as [|d IH]; intros w t H; [discriminate|]. cbn [unfold] in H. destruct w as [z|a]; [exact H|].
  remember (S d) as sd. cbn [unfold]. destruct (is_sym C (o_cix (h a))); [exact H|].
  destruct (o_elt (h a)); try exact H.
  - destruct (unfold_all (unfold d C h) (firstn (objsize C (o_cix (h a))) (o_slots (h a)))) as [ts|] eqn:E; [|discriminate].
    subst sd. rewrite (unfold_all_mono _ _ _ ts IH E). exact H.
  - destruct (unfold_all (unfold d C h) (firstn (o_size (h a)) (o_slots (h a)))) as [ts|] eqn:E; [|discriminate].
    subst sd. rewrite (unfold_all_mono _ _ _ ts IH E). exact H.
Qed.
Lemma unfold_le : forall d e w t, d <= e -> unfold d C h w = Some t -> unfold e C h w = Some t.
Proof. induction 1; intros; auto using unfold_S. Qed.

Lemma all2_mono : forall (eq eq' : word -> word -> out bool) n xs ys b, (forall x y b, eq x y = Ret b -> eq' x y = Ret b) ->
  all2 eq n xs ys = Ret b -> all2 eq' n xs ys = Ret b.
Proof.
  intros eq eq'. induction n as [|n IH]; intros xs ys b M H; cbn in *; [exact H|]. destruct xs as [|x r], ys as [|y s]; try discriminate.
  destruct (eq x y) as [c| | |] eqn:E; try discriminate. rewrite (M x y c E). cbn in *. destruct c; [apply IH; auto|exact H].
Qed.
Lemma equal_S : forall f x y b, equal f C h x y = Ret b -> equal (S f) C h x y = Ret b.
Proof.
  induction f as [|f IH]; intros x y b H; [discriminate|]. cbn [equal] in H. remember (S f) as sf. cbn [equal].
  destruct (word_eqb x y); [exact H|]. destruct x as [|a]; [exact H|]. destruct y as [|c]; [exact H|].
  destruct (negb (Nat.eqb (o_cix (h a)) (o_cix (h c)))); [exact H|]. destruct (is_sym C (o_cix (h a))); [exact H|].
  destruct (negb (elt_eqb (o_elt (h a)) (o_elt (h c)))); [exact H|]. destruct (o_elt (h a)); try exact H.
  - subst sf. eapply all2_mono; [exact IH|exact H].
  - destruct (Nat.eqb (o_size (h a)) (o_size (h c))); [|exact H]. subst sf. eapply all2_mono; [exact IH|exact H].
Qed.
Lemma equal_le : forall f g x y b, f <= g -> equal f C h x y = Ret b -> equal g C h x y = Ret b.
Proof. induction 1; intros; auto using equal_S. Qed.
Lemma EQUAL_det : forall x y b c, EQUAL C h x y b -> EQUAL C h x y c -> b = c.
Proof.
  intros x y b c [f F] [g G]. apply (equal_le f (f + g)) in F; [|lia]. apply (equal_le g (f + g)) in G; [|lia]. congruence.
Qed.

Lemma raw_eqb_spec : forall n a b, n <= length a -> n <= length b -> exists r, raw_eqb n a b = Ret r /\ (r = true <-> firstn n a = firstn n b).
Proof.
  induction n as [|n IH]; intros a b Ha Hb; [exists true; cbn; tauto|]. destruct a as [|x a]; [cbn in Ha; lia|]. destruct b as [|y b]; [cbn in Hb; lia|].
  cbn [length] in *. cbn [raw_eqb firstn]. destruct (Z.eqb_spec x y) as [->|N].
  - destruct (IH a b) as [r [E F]]; [lia|lia|]. exists r. split; [exact E|]. rewrite F. split; congruence.
  - exists false. split; [reflexivity|]. split; [discriminate|]. intro H. injection H. contradiction.
Qed.
Lemma all2_spec : forall eq (u : word -> option tree) n xs ys, n <= length xs -> n <= length ys ->
  (forall x y tx ty, u x = Some tx -> u y = Some ty -> exists r, eq x y = Ret r /\ (r = true <-> tx = ty)) ->
  forall txs tys, unfold_all u (firstn n xs) = Some txs -> unfold_all u (firstn n ys) = Some tys ->
  exists r, all2 eq n xs ys = Ret r /\ (r = true <-> txs = tys).
Proof.
  intros eq u. induction n as [|n IH]; intros xs ys Hx Hy M txs tys Ux Uy; [cbn in *; exists true; split; [reflexivity|]; split; congruence|].
  destruct xs as [|x xs]; [cbn in Hx; lia|]. destruct ys as [|y ys]; [cbn in Hy; lia|]. cbn [length firstn unfold_all] in *.
  destruct (u x) as [tx|] eqn:Ex; [|discriminate]. destruct (unfold_all u (firstn n xs)) as [txs'|] eqn:Exs; [|discriminate].
  destruct (u y) as [ty|] eqn:Ey; [|discriminate]. destruct (unfold_all u (firstn n ys)) as [tys'|] eqn:Eys; [|discriminate].
  injection Ux as <-. injection Uy as <-. cbn [all2].
  destruct (M x y tx ty Ex Ey) as [r [E F]]. rewrite E. cbn [bind]. destruct r.
  - destruct (IH xs ys ltac:(lia) ltac:(lia) M txs' tys' Exs Eys) as [r' [E' F']]. exists r'. split; [exact E'|]. rewrite F'.
    assert (tx = ty) by tauto. split; congruence.
  - exists false. split; [reflexivity|]. split; [discriminate|]. intro H. injection H as H1 H2. apply F in H1. discriminate.
Qed.

Hypothesis W : wf_store C h.
Lemma equal_unfold : forall d x y tx ty, unfold d C h x = Some tx -> unfold d C h y = Some ty ->
  exists r, equal d C h x y = Ret r /\ (r = true <-> tx = ty).
Proof.
  induction d as [|d IH]; intros x y tx ty Hx Hy; [discriminate|]. cbn [equal].
  destruct (word_eqb x y) eqn:E.
  - apply word_eqb_eq in E. subst y. exists true. split; [reflexivity|]. split; congruence.
  - assert (Nxy : x <> y) by (intro H; apply word_eqb_eq in H; congruence). clear E. cbn [unfold] in Hx, Hy.
    assert (Fa : forall t1 t2 : tree, t1 <> t2 -> exists r, Ret false = Ret r /\ (r = true <-> t1 = t2)).
    { intros t1 t2 H. exists false. split; [reflexivity|]. split; [discriminate|contradiction]. }
    destruct x as [z|a], y as [z'|b].
    + injection Hx as <-. injection Hy as <-. apply Fa. congruence.
    + injection Hx as <-. apply Fa. intro H. subst ty. destruct (is_sym C (o_cix (h b))); [discriminate|].
      destruct (o_elt (h b)); try discriminate; destruct (unfold_all _ _); discriminate.
    + injection Hy as <-. apply Fa. intro H. subst tx. destruct (is_sym C (o_cix (h a))); [discriminate|].
      destruct (o_elt (h a)); try discriminate; destruct (unfold_all _ _); discriminate.
    + destruct (W a) as [Wa1 [Wa2 Wa3]]. destruct (W b) as [Wb1 [Wb2 Wb3]]. destruct (Nat.eqb_spec (o_cix (h a)) (o_cix (h b))) as [Ec|Ec]; cbn [negb].
      * rewrite <- Ec in Hy, Wb1. destruct (is_sym C (o_cix (h a))) eqn:Es.
        { injection Hx as <-. injection Hy as <-. apply Fa. congruence. }
        destruct (elt_eqb (o_elt (h a)) (o_elt (h b))) eqn:Ee; cbn [negb].
        -- apply elt_eqb_eq in Ee. rewrite <- Ee in *.
           assert (Raw : forall e, o_elt (h a) = e -> e <> FIXED -> e <> POINTER ->
             Some (TNode (o_cix (h a)) e (o_size (h a)) [] (firstn (nwords e (o_size (h a))) (o_raw (h a)))) = Some tx ->
             Some (TNode (o_cix (h a)) e (o_size (h b)) [] (firstn (nwords e (o_size (h b))) (o_raw (h b)))) = Some ty ->
             exists r, (if Nat.eqb (o_size (h a)) (o_size (h b)) then raw_eqb (nwords e (o_size (h a))) (o_raw (h a)) (o_raw (h b)) else Ret false) = Ret r /\ (r = true <-> tx = ty)).
           { intros e He N1 N2 Ux Uy. rewrite He in *. injection Ux as <-. injection Uy as <-. destruct (Nat.eqb_spec (o_size (h a)) (o_size (h b))) as [En|En].
             - rewrite <- En in *. destruct (raw_eqb_spec (nwords e (o_size (h a))) (o_raw (h a)) (o_raw (h b))) as [r [E F]]; [destruct Wa3 as [|[|]]; [assumption|contradiction|contradiction]|destruct Wb3 as [|[|]]; [assumption|contradiction|contradiction]|].
               exists r. split; [exact E|]. rewrite F. split; congruence.
             - apply Fa. congruence. }
           destruct (o_elt (h a)) eqn:Ea; try (apply Raw; [reflexivity|discriminate|discriminate|exact Hx|exact Hy]).
           ++ destruct (unfold_all (unfold d C h) (firstn (objsize C (o_cix (h a))) (o_slots (h a)))) as [txs|] eqn:Ex; [|discriminate].
              destruct (unfold_all (unfold d C h) (firstn (objsize C (o_cix (h a))) (o_slots (h b)))) as [tys|] eqn:Ey; [|discriminate].
              injection Hx as <-. injection Hy as <-.
              destruct (all2_spec (equal d C h) (unfold d C h) (objsize C (o_cix (h a))) (o_slots (h a)) (o_slots (h b))) with (txs := txs) (tys := tys) as [r [E F]]; auto.
              { rewrite Wa1 by reflexivity. lia. } { rewrite Wb1 by reflexivity. lia. }
              exists r. split; [exact E|]. rewrite F. split; congruence.
           ++ destruct (unfold_all (unfold d C h) (firstn (o_size (h a)) (o_slots (h a)))) as [txs|] eqn:Ex; [|discriminate].
              destruct (unfold_all (unfold d C h) (firstn (o_size (h b)) (o_slots (h b)))) as [tys|] eqn:Ey; [|discriminate].
              injection Hx as <-. injection Hy as <-. destruct (Nat.eqb_spec (o_size (h a)) (o_size (h b))) as [En|En]; [|apply Fa; congruence].
              rewrite <- En in *.
              destruct (all2_spec (equal d C h) (unfold d C h) (o_size (h a)) (o_slots (h a)) (o_slots (h b))) with (txs := txs) (tys := tys) as [r [E F]]; auto.
              { rewrite Wa2 by reflexivity. lia. } { rewrite Wb2 by reflexivity. lia. }
              exists r. split; [exact E|]. rewrite F. split; congruence.
        -- assert (Ne : o_elt (h a) <> o_elt (h b)) by (intro H; apply elt_eqb_eq in H; congruence). apply Fa.
           destruct (o_elt (h a)), (o_elt (h b)); try contradiction; repeat match goal with H : (match ?u with Some _ => _ | None => _ end) = _ |- _ => destruct u; [|discriminate] end; congruence.
      * apply Fa. intro H. subst ty.
        destruct (is_sym C (o_cix (h a))), (is_sym C (o_cix (h b))).
        -- congruence.
        -- destruct (o_elt (h b)); repeat match goal with H : (match ?u with Some _ => _ | None => _ end) = _ |- _ => destruct u; [|discriminate] end; congruence.
        -- destruct (o_elt (h a)); repeat match goal with H : (match ?u with Some _ => _ | None => _ end) = _ |- _ => destruct u; [|discriminate] end; congruence.
        -- destruct (o_elt (h a)), (o_elt (h b)); repeat match goal with H : (match ?u with Some _ => _ | None => _ end) = _ |- _ => destruct u; [|discriminate] end; congruence.
Qed.

Lemma equal_structure : forall x y tx ty, stands_for C h x tx -> stands_for C h y ty ->
  exists r, EQUAL C h x y r /\ (r = true <-> tx = ty).
Proof.
  intros x y tx ty [d D] [e E]. destruct (equal_unfold (d + e) x y tx ty) as [r [R1 R2]].
  - eapply unfold_le; [|exact D]. lia.
  - eapply unfold_le; [|exact E]. lia.
  - exists r. split; [exists (d + e); exact R1|exact R2].
Qed.
Lemma EQUAL_iff : forall x y tx ty, stands_for C h x tx -> stands_for C h y ty -> (EQUAL C h x y true <-> tx = ty).
Proof.
  intros x y tx ty Sx Sy. destruct (equal_structure x y tx ty Sx Sy) as [r [R1 R2]]. rewrite <- R2. split.
  - intro H. symmetry. eapply EQUAL_det; eauto.
  - intros ->. exact R1.
Qed.
End S.

(** ** sxhash *)
Section H.
Context (C : classes) (h : store) (numhash : Z -> Z).
(** objects whose hash code does not look at an address: numbers, strings, symbols, vectors of such objects,
    data vectors, and lists with such elements *)
Inductive hashable : word -> Prop :=
| h_num z : hashable (WNum z)
| h_str a : is_str C (o_cix (h a)) = true -> hashable (WPtr a)
| h_sym a : is_sym C (o_cix (h a)) = true -> hashable (WPtr a)
| h_cons a : is_str C (o_cix (h a)) = false -> is_sym C (o_cix (h a)) = false -> is_cons C (o_cix (h a)) = true -> hashable_list (WPtr a) -> hashable (WPtr a)
| h_vec a : is_cons C (o_cix (h a)) = false -> o_elt (h a) = POINTER -> (forall x, In x (o_slots (h a)) -> hashable x) -> hashable (WPtr a)
| h_raw a : is_cons C (o_cix (h a)) = false -> o_elt (h a) <> POINTER -> o_elt (h a) <> FIXED -> hashable (WPtr a)
with hashable_list : word -> Prop :=
| hl_num z : hashable_list (WNum z)
| hl_end a : is_cons C (o_cix (h a)) = false -> hashable_list (WPtr a)
| hl_cons a : is_cons C (o_cix (h a)) = true -> hashable (nth 0 (o_slots (h a)) (WNum 0)) -> hashable_list (nth 1 (o_slots (h a)) (WNum 0)) -> hashable_list (WPtr a).

(** the class ranges are disjoint, conses have two slots, strings are data vectors *)
Definition wf_classes : Prop :=
  (forall c, is_cons C c = true -> is_sym C c = false /\ is_str C c = false /\ 2 <= objsize C c) /\
  (forall a, is_cons C (o_cix (h a)) = true -> o_elt (h a) = FIXED) /\
  (forall a, is_str C (o_cix (h a)) = true -> is_sym C (o_cix (h a)) = false /\ (o_elt (h a) = CHAR \/ o_elt (h a) = BYTE)).
Hypothesis W : wf_store C h.
Hypothesis WC : wf_classes.
Definition EQ x y := EQUAL C h x y true.

Lemma all2_true : forall f n xs ys, all2 (equal f C h) n xs ys = Ret true -> forall i, i < n -> exists x y, nth_error xs i = Some x /\ nth_error ys i = Some y /\ EQ x y.
Proof.
  intros f. induction n as [|n IH]; intros xs ys H i Hi; [lia|]. cbn in H. destruct xs as [|x r], ys as [|y s]; try discriminate.
  destruct (equal f C h x y) as [b| | |] eqn:E; try discriminate. cbn in H. destruct b; [|discriminate].
  destruct i as [|i]; [exists x, y; cbn; repeat split; auto; exists f; exact E|]. apply IH with (i := i) in H; [exact H|lia].
Qed.
Lemma raw_eqb_true : forall n a b, raw_eqb n a b = Ret true -> firstn n a = firstn n b.
Proof.
  induction n as [|n IH]; intros [|x a] [|y b] H; cbn in *; try discriminate; try reflexivity.
  destruct (Z.eqb_spec x y); [|discriminate]. subst. f_equal. auto.
Qed.
Lemma EQ_inv : forall a b, EQ (WPtr a) (WPtr b) -> a = b \/
  (o_cix (h a) = o_cix (h b) /\ is_sym C (o_cix (h a)) = false /\ o_elt (h a) = o_elt (h b) /\
   match o_elt (h a) with
   | FIXED => forall i, i < objsize C (o_cix (h a)) -> exists x y, nth_error (o_slots (h a)) i = Some x /\ nth_error (o_slots (h b)) i = Some y /\ EQ x y
   | POINTER => o_size (h a) = o_size (h b) /\ forall i, i < o_size (h a) -> exists x y, nth_error (o_slots (h a)) i = Some x /\ nth_error (o_slots (h b)) i = Some y /\ EQ x y
   | e => o_size (h a) = o_size (h b) /\ firstn (nwords e (o_size (h a))) (o_raw (h a)) = firstn (nwords e (o_size (h a))) (o_raw (h b))
   end).
Proof.
  intros a b [f H]. destruct f as [|f]; [discriminate|]. cbn [equal] in H. destruct (word_eqb (WPtr a) (WPtr b)) eqn:E.
  - left. apply word_eqb_eq in E. congruence.
  - right. destruct (Nat.eqb_spec (o_cix (h a)) (o_cix (h b))) as [Ec|]; cbn [negb] in H; [|discriminate]. split; [exact Ec|].
    destruct (is_sym C (o_cix (h a))); [discriminate|]. split; [reflexivity|].
    destruct (elt_eqb (o_elt (h a)) (o_elt (h b))) eqn:Ee; cbn [negb] in H; [|discriminate]. apply elt_eqb_eq in Ee. split; [exact Ee|].
    destruct (o_elt (h a)).
    + apply (all2_true f). exact H.
    + destruct (Nat.eqb_spec (o_size (h a)) (o_size (h b))); [|discriminate]. split; [assumption|]. apply raw_eqb_true; exact H.
    + destruct (Nat.eqb_spec (o_size (h a)) (o_size (h b))); [|discriminate]. split; [assumption|]. apply raw_eqb_true; exact H.
    + destruct (Nat.eqb_spec (o_size (h a)) (o_size (h b))); [|discriminate]. split; [assumption|]. apply raw_eqb_true; exact H.
    + destruct (Nat.eqb_spec (o_size (h a)) (o_size (h b))); [|discriminate]. split; [assumption|]. apply raw_eqb_true; exact H.
    + destruct (Nat.eqb_spec (o_size (h a)) (o_size (h b))); [|discriminate]. split; [assumption|]. apply raw_eqb_true; exact H.
    + destruct (Nat.eqb_spec (o_size (h a)) (o_size (h b))); [|discriminate]. split; [assumption|]. apply (all2_true f). exact H.
Qed.
Lemma EQ_num : forall x y, EQ x y -> (exists z, x = WNum z /\ y = WNum z) \/ exists a b, x = WPtr a /\ y = WPtr b.
Proof.
  intros x y [[|f] H]; [discriminate|]. cbn [equal] in H. destruct (word_eqb x y) eqn:E.
  - apply word_eqb_eq in E. subst y. destruct x; [left|right]; eauto.
  - destruct x, y; try discriminate. right. eauto.
Qed.
Lemma nth_firstn : forall {A} n (l : list A) i d, i < n -> nth i (firstn n l) d = nth i l d.
Proof. induction n; intros [|x l] [|i] d H; cbn; try lia; try reflexivity. apply IHn. lia. Qed.
Lemma byte_at_eq : forall n r s i, firstn n r = firstn n s -> i / 8 < n -> byte_at r i = byte_at s i.
Proof. intros n r s i E H. unfold byte_at. rewrite <- (nth_firstn n r), <- (nth_firstn n s), E by exact H. reflexivity. Qed.
Lemma bytes_of_eq : forall a b, o_size (h a) = o_size (h b) -> firstn ((o_size (h a) + 7) / 8) (o_raw (h a)) = firstn ((o_size (h a) + 7) / 8) (o_raw (h b)) ->
  bytes_of (h a) = bytes_of (h b).
Proof.
  intros a b E F. unfold bytes_of. rewrite <- E. apply map_ext_in. intros i Hi. apply in_seq in Hi. eapply byte_at_eq; [exact F|].
  apply Nat.div_lt_upper_bound; [lia|]. pose proof (Nat.div_mod (o_size (h a) + 7) 8 ltac:(lia)). pose proof (Nat.mod_upper_bound (o_size (h a) + 7) 8 ltac:(lia)). lia.
Qed.
Lemma firstn_le_eq : forall {A} m n (a b : list A), m <= n -> firstn n a = firstn n b -> firstn m a = firstn m b.
Proof.
  intros A m n a b H E. replace m with (Nat.min m n) by lia. rewrite <- !firstn_firstn, E. reflexivity.
Qed.
Lemma sum_hash_ext : forall f g xs ys acc, length xs = length ys -> (forall i x y, nth_error xs i = Some x -> nth_error ys i = Some y -> f x = g y) ->
  sum_hash f acc xs = sum_hash g acc ys.
Proof.
  intros f g. induction xs as [|x r IH]; intros [|y s] acc L M; try discriminate L; [reflexivity|]. cbn [sum_hash].
  rewrite (M 0 x y eq_refl eq_refl). destruct (g y); cbn; try reflexivity. apply IH; [cbn in L; lia|]. intros i. apply (M (S i)).
Qed.
Lemma nth_error_nth' : forall {A} (l : list A) i x d, nth_error l i = Some x -> nth i l d = x.
Proof. induction l; intros [|i] x d H; cbn in *; try discriminate; [congruence|]. auto. Qed.
Lemma nth_error_In' : forall {A} (l : list A) i x, nth_error l i = Some x -> In x l.
Proof. induction l; intros [|i] x H; cbn in *; try discriminate; [left; congruence|]. right. eauto. Qed.

Lemma sxhash_EQ : forall f,
  (forall x y, EQ x y -> hashable x -> sxhash f C h numhash x = sxhash f C h numhash y) /\
  (forall acc v w, EQ v w -> hashable_list v -> sxhash_list f C h numhash acc v = sxhash_list f C h numhash acc w).
Proof.
  induction f as [|f [IH1 IH2]]; [split; reflexivity|]. destruct WC as [WC1 [WC2 WC3]].
  split.
  - intros x y E Hx. destruct (EQ_num x y E) as [[z [-> ->]]|[a [b [-> ->]]]]; [reflexivity|].
    destruct (EQ_inv a b E) as [->|[Ec [Es [Ee R]]]]; [reflexivity|]. cbn [sxhash]. rewrite <- Ec, Es.
    destruct (is_str C (o_cix (h a))) eqn:Et.
    { destruct (WC3 a Et) as [_ [X|X]]; rewrite X in R; destruct R as [R1 R2]; rewrite (bytes_of_eq a b R1 R2); reflexivity. }
    destruct (is_cons C (o_cix (h a))) eqn:En.
    { apply IH2; [exact E|]. inversion Hx; subst; congruence. }
    rewrite <- Ee.
    assert (Raw : forall k, k <= nwords (o_elt (h a)) (o_size (h a)) -> o_elt (h a) <> FIXED -> o_elt (h a) <> POINTER -> firstn k (o_raw (h a)) = firstn k (o_raw (h b)) /\ o_size (h a) = o_size (h b)).
    { intros k Hk N1 N2. destruct (o_elt (h a)); try contradiction; destruct R as [R1 R2]; (split; [eapply firstn_le_eq; [exact Hk|exact R2]|exact R1]). }
    assert (D8 : o_size (h a) / 8 <= (o_size (h a) + 7) / 8) by (apply Nat.div_le_mono; lia).
    assert (D64 : o_size (h a) / 64 <= (o_size (h a) + 63) / 64) by (apply Nat.div_le_mono; lia).
    destruct (o_elt (h a)) eqn:Eo.
    + exfalso. inversion Hx; subst; congruence.
    + destruct (Raw (o_size (h a) / 64)) as [R1 R2]; [exact D64|discriminate|discriminate|]. rewrite <- R2, R1. reflexivity.
    + destruct (Raw (o_size (h a) / 8)) as [R1 R2]; [exact D8|discriminate|discriminate|]. rewrite <- R2, R1. reflexivity.
    + destruct (Raw (o_size (h a) / 8)) as [R1 R2]; [exact D8|discriminate|discriminate|]. rewrite <- R2, R1. reflexivity.
    + destruct (Raw (o_size (h a))) as [R1 R2]; [apply Nat.le_refl|discriminate|discriminate|]. rewrite <- R2, R1. reflexivity.
    + destruct (Raw (o_size (h a))) as [R1 R2]; [apply Nat.le_refl|discriminate|discriminate|]. rewrite <- R2, R1. reflexivity.
    + destruct R as [R1 R2]. destruct (W a) as [_ [Wa _]]. destruct (W b) as [_ [Wb _]].
      rewrite !firstn_all2 by (rewrite ?Wa, ?Wb by congruence; lia).
      apply sum_hash_ext; [rewrite Wa, Wb by congruence; exact R1|]. intros i x y Nx Ny.
      assert (Hi : i < o_size (h a)). { rewrite <- Wa by exact Eo. apply nth_error_Some. congruence. }
      destruct (R2 i Hi) as [x' [y' [Nx' [Ny' E']]]]. assert (x' = x) by congruence. assert (y' = y) by congruence. subst x' y'.
      apply IH1; [exact E'|]. inversion Hx; subst; try congruence. match goal with H : forall x, In x _ -> hashable x |- _ => apply H end. eapply nth_error_In'; eauto.
  - intros acc v w E Hv. destruct (EQ_num v w E) as [[z [-> ->]]|[a [b [-> ->]]]]; [reflexivity|].
    destruct (EQ_inv a b E) as [->|[Ec [Es [Ee R]]]]; [reflexivity|]. cbn [sxhash_list]. rewrite <- Ec.
    destruct (is_cons C (o_cix (h a))) eqn:En; [|reflexivity]. rewrite (WC2 a En) in R. destruct (WC1 _ En) as [_ [_ L2]].
    destruct (R 0 ltac:(lia)) as [x0 [y0 [X0 [Y0 E0]]]]. destruct (R 1 ltac:(lia)) as [x1 [y1 [X1 [Y1 E1]]]].
    rewrite (nth_error_nth' _ _ _ (WNum 0) X0), (nth_error_nth' _ _ _ (WNum 0) Y0), (nth_error_nth' _ _ _ (WNum 0) X1), (nth_error_nth' _ _ _ (WNum 0) Y1).
    inversion Hv; subst; try congruence. rewrite (nth_error_nth' _ _ _ (WNum 0) X0) in *. rewrite (nth_error_nth' _ _ _ (WNum 0) X1) in *.
    rewrite (IH1 x0 y0) by assumption. destruct (sxhash f C h numhash y0); cbn; try reflexivity. apply IH2; assumption.
Qed.
End H.
