(** Proofs about the marker. *)
From Verif Require Export HeapProofs6 MarkModel.

(** ** Specification: reachability *)
(** w is a pointer found in the cell at a *)
Definition points (o : objs) (s : state) (a w : nat) : Prop :=
  clo o a = false /\ exists i, i < size (hbix (head s a)) /\ w = mem s (a + i) /\ ispointer w = true /\
    match elm o a with ELM_FIXED => 1 <= i | ELM_POINTER => 2 <= i | ELM_OTHER => False end.
Definition in_heap (o : objs) (s : state) (w : nat) : Prop := out_of_heap o s w = false.
Section Reach.
Variables (o : objs) (s : state) (R : nat -> Prop) (F : nat -> Prop).
(** reached from the words R without going through the cells F *)
Inductive reach : nat -> Prop :=
| r_root w : R w -> in_heap o s w -> reach (w / 8)
| r_step a w : reach a -> ~ F a -> points o s a w -> in_heap o s w -> reach (w / 8).
End Reach.
Definition nowhere (_ : nat) : Prop := False.

(** ** The stack *)
Definition stack_ok (g : gstack) : Prop := 10 < lim g /\ lim g <= cap g.
Lemma make_room_ok : forall f g n, stack_ok g -> length (stk g) + n < f + lim g -> 0 < f -> exists g', make_room f g n = Ret g' /\ stk g' = stk g /\ stack_ok g' /\ length (stk g') + n <= lim g'.
Proof.
  induction f as [|f IH]; intros g n [H1 H2] Hf P; [lia|]. cbn [make_room]. destruct (Nat.ltb_spec (lim g) (length (stk g) + n)) as [Q|Q].
  - destruct (IH (newgcstack g) n) as [g' [E1 [E2 E3]]]; [split; cbn [newgcstack lim cap]; lia|cbn [newgcstack lim stk]; lia|lia|]. exists g'. auto.
  - exists g. unfold stack_ok. auto.
Qed.
Fixpoint words (s : state) (x n : nat) : list nat := match n with O => [] | S n' => words s (S x) n' ++ (if ispointer (mem s x) then [mem s x] else []) end.
Lemma words_length : forall s n x, length (words s x n) <= n.
Proof. intros s. induction n as [|n IH]; intro x; cbn [words]; [cbn; lia|]. rewrite app_length. specialize (IH (S x)). destruct (ispointer (mem s x)); cbn [length]; lia. Qed.
Lemma words_in : forall s n x w, In w (words s x n) <-> exists i, i < n /\ w = mem s (x + i) /\ ispointer w = true.
Proof.
  intros s. induction n as [|n IH]; intros x w; cbn [words].
  - split; [intros []|intros [i [H _]]; lia].
  - rewrite in_app_iff, IH. split.
    + intros [[i [H1 [H2 H3]]]|H]; [exists (S i); rewrite <- plus_n_Sm; repeat split; auto; lia|]. destruct (ispointer (mem s x)) eqn:P; [|destruct H]. destruct H as [<-|[]]. exists 0. rewrite Nat.add_0_r. repeat split; auto. lia.
    + intros [[|i] [H1 [H2 H3]]]; [right; rewrite Nat.add_0_r in H2; subst w; rewrite H3; left; reflexivity|]. left. exists i. rewrite <- plus_n_Sm in H2. repeat split; auto. lia.
Qed.
Lemma push_words_ok : forall s n x g, length (stk g) + n <= cap g -> push_words s g x n = Ret (mkG (words s x n ++ stk g) (lim g) (cap g)).
Proof.
  intros s. induction n as [|n IH]; intros x g H; cbn [push_words words].
  - destruct g; reflexivity.
  - destruct (ispointer (mem s x)) eqn:P.
    + unfold push. destruct (Nat.ltb_spec (length (stk g)) (cap g)); [|lia]. cbn [bind]. rewrite IH by (cbn [stk cap length]; lia). cbn [stk lim cap]. rewrite <- app_assoc. reflexivity.
    + cbn [bind]. rewrite IH by lia. rewrite app_nil_r. reflexivity.
Qed.

(** ** The loop *)
Section Loop.
Variables (o : objs) (s : state) (L : list nat) (R : nat -> Prop) (F : nat -> Prop).
Hypothesis NL : NoDup L.
(** words the marker may meet *)
Definition met (w : nat) : Prop := R w \/ exists a, reach o s R nowhere a /\ points o s a w.
Hypothesis valid : forall w, met w -> in_heap o s w -> w mod 8 = 0 /\ In (w / 8) L.

Definition weight (M : nat -> bool) (l : list nat) : nat := list_sum (map (fun a => if M a then 0 else size (hbix (head s a))) l).
Lemma weight_upd_out : forall M a l, ~ In a l -> weight (upd M a true) l = weight M l.
Proof.
  intros M a l H. unfold weight. f_equal. apply map_ext_in. intros b I. unfold upd. destruct (Nat.eqb_spec b a) as [E|N]; [subst; contradiction|reflexivity].
Qed.
Lemma weight_upd : forall M a l, NoDup l -> In a l -> M a = false -> weight (upd M a true) l + size (hbix (head s a)) = weight M l.
Proof.
  intros M a l. induction l as [|b l IH]; intros Nd I E; [destruct I|]. apply NoDup_cons_iff in Nd as [N1 N2].
  unfold weight in *. cbn [map list_sum fold_right]. fold (list_sum (map (fun a0 => if upd M a true a0 then 0 else size (hbix (head s a0))) l)). fold (list_sum (map (fun a0 => if M a0 then 0 else size (hbix (head s a0))) l)).
  destruct (Nat.eq_dec b a) as [Q|Q].
  - subst b. unfold upd at 1. rewrite Nat.eqb_refl, E. assert (K := weight_upd_out M a l N1). unfold weight in K. lia.
  - destruct I as [I|I]; [congruence|]. unfold upd at 1. rewrite (proj2 (Nat.eqb_neq b a) Q). assert (K := IH N2 I E). lia.
Qed.
Lemma weight_mono : forall M a l, weight (upd M a true) l <= weight M l.
Proof.
  intros M a l. unfold weight. induction l as [|b l IH]; [cbn; lia|]. cbn [map list_sum fold_right]. unfold upd at 1. unfold list_sum in IH. destruct (Nat.eqb b a); destruct (M b); lia.
Qed.
(** what the marks and the words on the stack satisfy *)
Record tri (M0 M : nat -> bool) (st : list nat) : Prop := {
  tr_met : forall w, In w st -> met w;
  tr_sound : forall a, M a = true -> M0 a = true \/ reach o s R nowhere a;
  tr_mono : forall a, M0 a = true -> M a = true;
  tr_closed : forall a w, M a = true -> ~ F a -> points o s a w -> in_heap o s w -> M (w / 8) = true \/ In w st }.

Lemma in_heap_dec : forall w, out_of_heap o s w = true \/ in_heap o s w.
Proof. intro w. unfold in_heap. destruct (out_of_heap o s w); auto. Qed.
Lemma tri_pop : forall M0 M w r, tri M0 M (w :: r) -> (in_heap o s w -> M (w / 8) = true) -> tri M0 M r.
Proof.
  intros M0 M w r [T1 T2 T3 T4] H. constructor; auto.
  - intros v I. apply T1. right. exact I.
  - intros a v E Nf P Iv. destruct (T4 a v E Nf P Iv) as [K|[<-|K]]; auto.
Qed.
Lemma met_reach : forall w, met w -> in_heap o s w -> reach o s R nowhere (w / 8).
Proof. intros w [H|[a [H1 H2]]] I; [apply r_root; auto|]. eapply r_step; eauto. Qed.
Lemma tri_mark : forall M0 M w r ws, tri M0 M (w :: r) -> in_heap o s w -> (forall v, points o s (w / 8) v -> In v ws) -> (forall v, In v ws -> points o s (w / 8) v) ->
  tri M0 (upd M (w / 8) true) (ws ++ r).
Proof.
  intros M0 M w r ws [T1 T2 T3 T4] Iw H1 H2. assert (Rw := met_reach w (T1 w (or_introl eq_refl)) Iw). constructor.
  - intros v I. apply in_app_iff in I as [I|I]; [|apply T1; right; exact I]. right. exists (w / 8). auto.
  - intros a. unfold upd. destruct (Nat.eqb_spec a (w / 8)) as [->|N]; auto.
  - intros a E. unfold upd. destruct (Nat.eqb a (w / 8)); auto.
  - intros a v E Nf P Iv. destruct (Nat.eq_dec a (w / 8)) as [->|N].
    + right. apply in_app_iff. left. apply H1. exact P.
    + unfold upd in E. rewrite (proj2 (Nat.eqb_neq _ _) N) in E. destruct (T4 a v E Nf P Iv) as [K|[<-|K]].
      * left. unfold upd. destruct (Nat.eqb (v / 8) (w / 8)); auto.
      * left. unfold upd. rewrite Nat.eqb_refl. reflexivity.
      * right. apply in_app_iff. right. exact K.
Qed.
Lemma size_ge2 : forall k, 3 <= size k. Proof. intro k. pose proof (size_ge k). lia. Qed.
Lemma mark_loop_ok : forall f M0 M g, stack_ok g -> tri M0 M (stk g) -> weight M L + length (stk g) < f ->
  exists M' g', mark_loop f o s M g = Ret (M', g') /\ stack_ok g' /\ tri M0 M' [] /\ weight M' L <= weight M L /\ (forall a, M a = true -> M' a = true) /\ forall w, In w (stk g) -> in_heap o s w -> M' (w / 8) = true.
Proof.
  induction f as [|f IH]; intros M0 M g Sg T Hf; [lia|]. cbn [mark_loop]. destruct (stk g) as [|w r] eqn:Es.
  - exists M, g. split; [reflexivity|]. split; [exact Sg|]. split; [exact T|]. split; [lia|]. split; [auto|]. intros w [].
  - cbn [length] in Hf. set (g1 := mkG r (lim g) (cap g)).
    assert (Sg1 : stack_ok g1) by exact Sg.
    (* popping a word that needs no work *)
    assert (Pop : (in_heap o s w -> M (w / 8) = true) -> exists M' g', mark_loop f o s M g1 = Ret (M', g') /\ stack_ok g' /\ tri M0 M' [] /\ weight M' L <= weight M L /\ (forall a, M a = true -> M' a = true) /\ forall v, In v (w :: r) -> in_heap o s v -> M' (v / 8) = true).
    { intro Hw. destruct (IH M0 M g1 Sg1 (tri_pop _ _ _ _ T Hw)) as [M' [g' [E1 [E2 [E3 [E4 [E5 E6]]]]]]]; [unfold g1; cbn [stk lim]; lia|].
      exists M', g'. repeat (split; [assumption|]). intros v [<-|I] Iv; [apply E5; auto|apply E6; auto]. }
    destruct (in_heap_dec w) as [Ow|Iw].
    { rewrite Ow. apply Pop. intro Iw. unfold in_heap in Iw. congruence. }
    assert (Ow := Iw). unfold in_heap in Ow. rewrite Ow.
    destruct (valid w (tr_met _ _ _ T w (or_introl eq_refl)) Iw) as [V1 V2]. rewrite V1. cbn [Nat.eqb negb].
    destruct (M (w / 8)) eqn:Ew. { apply Pop. auto. }
    assert (Wu := weight_upd M (w / 8) L NL V2 Ew). pose proof (size_ge2 (hbix (head s (w / 8)))) as Sz.
    (* marking the cell and pushing ws *)
    assert (Go : forall ws g2, (forall v, points o s (w / 8) v -> In v ws) -> (forall v, In v ws -> points o s (w / 8) v) -> stack_ok g2 -> stk g2 = ws ++ r -> length ws < size (hbix (head s (w / 8))) ->
       exists M' g', mark_loop f o s (upd M (w / 8) true) g2 = Ret (M', g') /\ stack_ok g' /\ tri M0 M' [] /\ weight M' L <= weight M L /\ (forall a, M a = true -> M' a = true) /\ forall v, In v (w :: r) -> in_heap o s v -> M' (v / 8) = true).
    { intros ws g2 P1 P2 Sg2 E2 Lw. assert (T2 := tri_mark _ _ _ _ ws T Iw P1 P2). rewrite <- E2 in T2.
      destruct (IH M0 _ g2 Sg2 T2) as [M' [g' [F1 [F2 [F3 [F4 [F5 F6]]]]]]]; [rewrite E2, app_length; lia|].
      assert (Up : upd M (w / 8) true (w / 8) = true) by (unfold upd; rewrite Nat.eqb_refl; reflexivity).
      exists M', g'. split; [exact F1|]. split; [exact F2|]. split; [exact F3|]. split; [lia|]. split.
      - intros a Ea. apply F5. unfold upd. destruct (Nat.eqb a (w / 8)); auto.
      - intros v [<-|I] Iv; [apply F5; exact Up|]. apply F6; [|exact Iv]. rewrite E2. apply in_app_iff. auto. }
    destruct (clo o (w / 8)) eqn:Ec.
    { apply (Go [] g1); [intros v [P _]; congruence|intros v []|exact Sg1|reflexivity|cbn [length]; lia]. }
    destruct (elm o (w / 8)) eqn:Ee.
    + destruct (make_room_ok (S f) g1 (size (hbix (head s (w / 8))) - 1) Sg1) as [g2 [R1 [R2 [R3 R4]]]]; [unfold g1; cbn [stk lim]; lia|lia|]. rewrite R1. cbn [bind].
      rewrite push_words_ok by (destruct R3; lia). cbn [bind]. rewrite R2. unfold g1. cbn [stk lim cap].
      apply (Go (words s (w / 8 + 1) (size (hbix (head s (w / 8))) - 1))); [| |exact R3|reflexivity|].
      * intros v [_ [i [I1 [I2 [I3 I4]]]]]. rewrite Ee in I4. apply words_in. exists (i - 1). replace (w / 8 + 1 + (i - 1)) with (w / 8 + i) by lia. repeat split; auto; lia.
      * intros v I. apply words_in in I as [i [I1 [I2 I3]]]. split; [exact Ec|]. exists (S i). rewrite Ee. replace (w / 8 + S i) with (w / 8 + 1 + i) by lia. repeat split; auto; lia.
      * pose proof (words_length s (size (hbix (head s (w / 8))) - 1) (w / 8 + 1)). lia.
    + destruct (make_room_ok (S f) g1 (size (hbix (head s (w / 8))) - 2) Sg1) as [g2 [R1 [R2 [R3 R4]]]]; [unfold g1; cbn [stk lim]; lia|lia|]. rewrite R1. cbn [bind].
      rewrite push_words_ok by (destruct R3; lia). cbn [bind]. rewrite R2. unfold g1. cbn [stk lim cap].
      apply (Go (words s (w / 8 + 2) (size (hbix (head s (w / 8))) - 2))); [| |exact R3|reflexivity|].
      * intros v [_ [i [I1 [I2 [I3 I4]]]]]. rewrite Ee in I4. apply words_in. exists (i - 2). replace (w / 8 + 2 + (i - 2)) with (w / 8 + i) by lia. repeat split; auto; lia.
      * intros v I. apply words_in in I as [i [I1 [I2 I3]]]. split; [exact Ec|]. exists (S (S i)). rewrite Ee. replace (w / 8 + S (S i)) with (w / 8 + 2 + i) by lia. repeat split; auto; lia.
      * pose proof (words_length s (size (hbix (head s (w / 8))) - 2) (w / 8 + 2)). lia.
    + apply (Go [] g1); [intros v [_ [i [_ [_ [_ K]]]]]; rewrite Ee in K; destruct K|intros v []|exact Sg1|reflexivity|cbn [length]; lia].
Qed.
Lemma run_actions_ok : forall f l M g, stack_ok g -> weight M L + 1 < f -> tri M M [] ->
  (forall w, In (Mark w) l -> R w) -> (forall a, In (Markon a) l -> F a) ->
  exists M' g', run_actions f o s M g l = Ret (M', g') /\ stack_ok g' /\
    (forall a, M a = true -> M' a = true) /\
    (forall a, M' a = true -> M a = true \/ reach o s R nowhere a \/ In (Markon a) l) /\
    (forall w, In (Mark w) l -> in_heap o s w -> M' (w / 8) = true) /\
    (forall a, In (Markon a) l -> M' a = true) /\
    (forall a w, M' a = true -> ~ F a -> points o s a w -> in_heap o s w -> M' (w / 8) = true).
Proof.
  intros f l. induction l as [|[w|a] l IH]; intros M g Sg Hf T HR HF; cbn [run_actions].
  - exists M, g. split; [reflexivity|]. split; [exact Sg|]. split; [auto|]. split; [auto|]. split; [intros w []|]. split; [intros a []|].
    intros a w E Nf P I. destruct (tr_closed _ _ _ T a w E Nf P I) as [K|[]]. exact K.
  - unfold mark, push. cbn [stk length cap lim]. destruct Sg as [S1 S2]. destruct (Nat.ltb_spec 0 (cap g)) as [Hc|Hc]; [|lia]. cbn [bind].
    assert (T0 : tri M M [w]).
    { destruct T as [T1 T2 T3 T4]. constructor; auto.
      - intros v [<-|[]]. left. apply HR. left. reflexivity.
      - intros a v E Nf P I. destruct (T4 a v E Nf P I) as [K|[]]. auto. }
    destruct (mark_loop_ok f M M (mkG [w] (lim g) (cap g))) as [M1 [g1 [E1 [E2 [E3 [E4 [E5 E6]]]]]]]; [split; assumption|exact T0|cbn [stk length]; lia|].
    rewrite E1. cbn [bind fst snd].
    assert (T1 : tri M1 M1 []). { destruct E3 as [Q1 Q2 Q3 Q4]. constructor; auto. }
    destruct (IH M1 g1 E2) as [M' [g' [F1 [F2 [F3 [F4 [F5 [F6 F7]]]]]]]]; [lia|exact T1|intros v I; apply HR; right; exact I|intros v I; apply HF; right; exact I|].
    exists M', g'. split; [exact F1|]. split; [exact F2|]. split; [auto|]. split; [|split; [|split; [|exact F7]]].
    + intros a Ea. destruct (F4 a Ea) as [K|[K|K]]; [|auto|right; right; right; exact K]. destruct (tr_sound _ _ _ E3 a K); auto.
    + intros v [K|K] I; [injection K as <-; apply F3, E6; [left; reflexivity|exact I]|apply F5; auto].
    + intros a [K|K]; [discriminate K|]. apply F6. exact K.
  - assert (Fa : F a) by (apply HF; left; reflexivity).
    assert (T1 : tri (upd M a true) (upd M a true) []).
    { destruct T as [T1 T2 T3 T4]. constructor; auto. intros b w E Nf P I. destruct (Nat.eq_dec b a) as [->|N]; [contradiction|]. unfold upd in E. rewrite (proj2 (Nat.eqb_neq b a) N) in E.
      destruct (T4 b w E Nf P I) as [K|[]]. left. unfold upd. destruct (Nat.eqb (w / 8) a); auto. }
    pose proof (weight_mono M a L) as Wm.
    destruct (IH (upd M a true) g Sg) as [M' [g' [F1 [F2 [F3 [F4 [F5 [F6 F7]]]]]]]]; [lia|exact T1|intros v I; apply HR; right; exact I|intros v I; apply HF; right; exact I|].
    exists M', g'. split; [exact F1|]. split; [exact F2|]. split; [|split; [|split; [|split; [|exact F7]]]].
    + intros b E. apply F3. unfold upd. destruct (Nat.eqb b a); auto.
    + intros b Eb. destruct (F4 b Eb) as [K|[K|K]]; [|auto|right; right; right; exact K]. unfold upd in K. destruct (Nat.eqb_spec b a) as [->|N]; [right; right; left; reflexivity|auto].
    + intros v [K|K] I; [discriminate K|]. apply F5; auto.
    + intros b [K|K]; [injection K as <-; apply F3; unfold upd; rewrite Nat.eqb_refl; reflexivity|apply F6; exact K].
Qed.
End Loop.
