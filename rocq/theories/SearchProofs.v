(** Proofs about the search functions. *)
From Coq Require Import List Arith Bool Lia Sorting.Permutation Sorting.Sorted.
From Verif Require Import ListModel SeqModel SeqProofs SearchModel SearchSpec.
Import ListNotations.

(** ** merge-list with a predicate that answers on NIL *)
Section Merge.
Context {V : Type} (nil : V) (pred : V -> V -> option bool) (R : V -> V -> Prop).
Hypothesis Tr : forall x y z, R x y -> R y z -> R x z.
(** the elements *)
Variable D : V -> Prop.
Hypothesis Tot : forall x y, D x -> D y -> exists b, pred x y = Some b.
Hypothesis P1 : forall x y, D x -> D y -> pred x y = Some true -> R x y.
Hypothesis P2 : forall x y, D x -> D y -> pred x y = Some false -> R y x.
Hypothesis Pn : forall y, D y -> exists b, pred nil y = Some b.

Lemma front_tot : forall x1 l2 acc, Forall D l2 -> (forall y, D y -> exists b, pred x1 y = Some b) ->
  exists f b, ml_front pred x1 l2 acc = Ret (rev acc ++ f, b) /\ l2 = f ++ b /\ (D x1 -> Forall (fun y => R y x1) f) /\
    match b with [] => True | y :: _ => D x1 -> R x1 y end.
Proof.
  intros x1 l2 acc F T. revert acc. induction F as [|y r Dy F IH]; intro acc; cbn [ml_front].
  - exists [], []. rewrite app_nil_r. repeat split; auto.
  - destruct (T y Dy) as [[] E]; rewrite E.
    + exists [], (y :: r). rewrite app_nil_r. repeat split; auto.
    + destruct (IH (y :: acc)) as [f [b [E1 [E2 [E3 E4]]]]]. exists (y :: f), b. cbn [rev] in E1. rewrite <- app_assoc in E1.
      split; [exact E1|]. split; [cbn; congruence|]. split; [|exact E4]. intro Dx. constructor; auto.
Qed.

Lemma inner_tot : forall rest linked x e2, D x -> Forall D rest -> D e2 ->
  (ml_inner nil pred linked x rest e2 = Ret (rev (x :: rest) ++ linked, None) /\ Forall (fun y => R y e2) rest) \/
  (exists a x1 b, ml_inner nil pred linked x rest e2 = Ret (rev a ++ linked, Some (x1, b)) /\ x :: rest = a ++ x1 :: b /\
     (a <> [] -> R x1 e2) /\ match b with [] => True | y :: _ => R e2 y end).
Proof.
  induction rest as [|y r IH]; intros linked x e2 Dx F De; cbn [ml_inner hd].
  - destruct (Pn e2 De) as [[] E]; rewrite E.
    + left. split; [reflexivity|constructor].
    + right. exists [], x, []. repeat split; auto. contradiction.
  - inversion_clear F as [|? ? Dy Fr]. destruct (Tot y e2 Dy De) as [[] E]; rewrite E.
    + destruct (IH (x :: linked) y e2 Dy Fr De) as [[E1 F1]|[a [x1 [b [E1 [E2 [E3 E4]]]]]]].
      * left. rewrite E1. split; [|constructor; auto]. cbn [rev]. rewrite <- !app_assoc. reflexivity.
      * right. exists (x :: a), x1, b. rewrite E1. cbn [rev]. rewrite <- !app_assoc. split; [reflexivity|]. split; [cbn; congruence|]. split; [|exact E4].
        intros _. destruct a as [|a0 a]; [|apply E3; discriminate]. cbn in E2. injection E2 as <- _. auto.
    + right. exists [], x, (y :: r). repeat split; auto. contradiction.
Qed.

Lemma SSapp : forall l1 l2 : list V, StronglySorted R (l1 ++ l2) <-> StronglySorted R l1 /\ StronglySorted R l2 /\ (forall x y, In x l1 -> In y l2 -> R x y).
Proof.
  induction l1 as [|a l1 IH]; intro l2; cbn.
  - split; [intro H; split; [constructor|split; [exact H|contradiction]]|tauto].
  - split.
    + intro H. inversion_clear H as [|? ? H1 H2]. apply IH in H1. destruct H1 as [S1 [S2 S3]]. apply Forall_app in H2. destruct H2 as [F1 F2].
      split; [constructor; assumption|]. split; [exact S2|]. intros x y [<-|Hx] Hy; [rewrite Forall_forall in F2; auto|auto].
    + intros [S1 [S2 S3]]. inversion_clear S1 as [|? ? S1' F1]. constructor; [apply IH; auto|]. apply Forall_app. split; [exact F1|]. apply Forall_forall. auto.
Qed.
Lemma head_le : forall z y r, R z y -> StronglySorted R (y :: r) -> forall w, In w (y :: r) -> R z w.
Proof. intros z y r H S w [<-|Hw]; [exact H|]. inversion_clear S as [|? ? _ F]. rewrite Forall_forall in F. eapply Tr; eauto. Qed.
Lemma le_last : forall l x e, StronglySorted R (l ++ [x]) -> R x e -> forall w, In w (l ++ [x]) -> R w e.
Proof.
  intros l x e S H w Hw. apply SSapp in S. destruct S as [_ [_ S]]. apply in_app_iff in Hw. destruct Hw as [Hw|[<-|[]]]; [|exact H].
  eapply Tr; [apply S; [exact Hw|left; reflexivity]|exact H].
Qed.

Lemma outer_tot : forall l2 linked x rest, Forall D (x :: rest) -> Forall D l2 ->
  StronglySorted R (rev linked ++ x :: rest) -> StronglySorted R l2 -> (forall w, In w l2 -> R x w) ->
  exists r, ml_outer nil pred linked x rest l2 = Ret r /\ Permutation r (rev linked ++ x :: rest ++ l2) /\ StronglySorted R r.
Proof.
  induction l2 as [|e2 l2 IH]; intros linked x rest Dx D2 S1 S2 Hx.
  - exists (rev linked ++ x :: rest). split; [destruct rest; cbn [ml_outer rev]; rewrite ?app_nil_r, <- ?app_assoc; reflexivity|]. rewrite app_nil_r. split; [apply Permutation_refl|exact S1].
  - destruct rest as [|y0 r0].
    + exists (rev linked ++ [x] ++ e2 :: l2). split; [cbn [ml_outer rev app]; rewrite <- app_assoc; reflexivity|]. cbn [app]. split; [apply Permutation_refl|].
      change (x :: e2 :: l2) with ([x] ++ e2 :: l2). rewrite app_assoc. apply SSapp. split; [exact S1|]. split; [exact S2|].
      intros u w Hu Hw. eapply le_last; [exact S1| |exact Hu]. apply Hx, Hw.
    + cbn [ml_outer]. inversion_clear D2 as [|? ? De D2']. pose proof S2 as S2c. inversion_clear S2 as [|? ? S2' S2f]. inversion_clear Dx as [|? ? Dx1 Dr].
      destruct (inner_tot (y0 :: r0) linked x e2 Dx1 Dr De) as [[E1 F1]|[a [x1 [b [E1 [E2 [E3 E4]]]]]]]; rewrite E1; cbn [bind].
      * exists (rev linked ++ x :: (y0 :: r0) ++ e2 :: l2). split.
        { f_equal. rewrite rev_app_distr, rev_involutive, <- app_assoc. reflexivity. }
        split; [apply Permutation_refl|]. change (x :: (y0 :: r0) ++ e2 :: l2) with ((x :: y0 :: r0) ++ e2 :: l2). rewrite app_assoc. apply SSapp.
        split; [exact S1|]. split; [exact S2c|]. intros u w Hu Hw.
        assert (Hue : R u e2).
        { apply in_app_iff in Hu. apply SSapp in S1. destruct S1 as [_ [S1b S1c]].
          assert (Rx : R x e2) by (apply Hx; left; reflexivity).
          destruct Hu as [Hu|[<-|Hu]].
          - eapply Tr; [apply (S1c u x Hu); left; reflexivity|exact Rx].
          - exact Rx.
          - rewrite Forall_forall in F1. apply F1, Hu. }
        apply (head_le u e2 l2 Hue S2c w Hw).
      * assert (Rx1 : R x1 e2). { destruct a as [|a0 a]; [cbn in E2; injection E2 as <- _; apply Hx; left; reflexivity|apply E3; discriminate]. }
        pose proof S1 as S1c. rewrite E2 in S1c. replace (rev linked ++ a ++ x1 :: b) with (((rev linked ++ a) ++ [x1]) ++ b) in S1c by (rewrite <- !app_assoc; reflexivity).
        apply SSapp in S1c. destruct S1c as [Sa [Sb Sc]].
        pose proof (le_last _ _ _ Sa Rx1) as Le2.
        assert (Gb : forall w, In w b -> R e2 w). { destruct b as [|b0 b]; [contradiction|]. apply (head_le e2 b0 b E4 Sb). }
        assert (Eq : rev (x1 :: rev a ++ linked) = (rev linked ++ a) ++ [x1]) by (cbn; rewrite rev_app_distr, rev_involutive; reflexivity).
        assert (Db : Forall D b). { assert (Q : Forall D (a ++ x1 :: b)) by (rewrite <- E2; constructor; assumption). apply Forall_app in Q. destruct Q as [_ Q]. inversion_clear Q; assumption. }
        destruct (IH (x1 :: rev a ++ linked) e2 b) as [r [Er [Pr Sr]]].
        { constructor; assumption. }
        { exact D2'. }
        { rewrite Eq. apply SSapp. split; [exact Sa|]. split; [constructor; [exact Sb|apply Forall_forall; exact Gb]|].
          intros u w Hu [<-|Hw]; [apply Le2; exact Hu|apply Sc; assumption]. }
        { exact S2'. }
        { intros w Hw. rewrite Forall_forall in S2f. apply S2f, Hw. }
        exists r. split; [exact Er|]. split; [|exact Sr]. eapply Permutation_trans; [exact Pr|].
        rewrite Eq. change (x :: (y0 :: r0) ++ e2 :: l2) with ((x :: y0 :: r0) ++ e2 :: l2). rewrite E2. rewrite <- !app_assoc. cbn [app]. apply Permutation_app_head, Permutation_app_head. constructor.
        change (e2 :: b ++ l2) with ([e2] ++ b ++ l2). change (b ++ e2 :: l2) with (b ++ [e2] ++ l2). rewrite !app_assoc. apply Permutation_app_tail, Permutation_app_comm.
Qed.

Lemma merge_tot : forall l1 l2, Forall D l1 -> Forall D l2 -> StronglySorted R l1 -> StronglySorted R l2 ->
  exists r, merge_list nil pred l1 l2 = Ret r /\ Permutation r (l1 ++ l2) /\ StronglySorted R r.
Proof.
  intros l1 l2 D1 D2 S1 S2. unfold merge_list.
  assert (T : forall y, D y -> exists b, pred (hd nil l1) y = Some b).
  { destruct l1 as [|x l1]; [exact Pn|]. inversion_clear D1. intros y Dy. apply Tot; assumption. }
  destruct (front_tot (hd nil l1) l2 [] D2 T) as [f [b [E1 [E2 [E3 E4]]]]]. rewrite E1. cbn [bind rev app].
  subst l2. apply Forall_app in D2. destruct D2 as [Df Db]. pose proof S2 as S2c. apply SSapp in S2. destruct S2 as [Sf [Sb Sfb]].
  destruct l1 as [|x rest].
  - exists (f ++ b). split; [reflexivity|]. split; [apply Permutation_refl|exact S2c].
  - cbn [hd] in *. inversion D1 as [|? ? Dx Dr E]; subst.
    assert (Hx : forall w, In w b -> R x w). { destruct b as [|b0 b]; [contradiction|]. apply (head_le x b0 b (E4 Dx) Sb). }
    destruct (outer_tot b [] x rest D1 Db S1 Sb Hx) as [r [Er [Pr Sr]]]. rewrite Er. cbn [bind]. exists (f ++ r). split; [reflexivity|]. cbn [rev app] in Pr. split.
    + eapply Permutation_trans; [apply Permutation_app_head; exact Pr|]. change (x :: rest ++ b) with ((x :: rest) ++ b). rewrite !app_assoc. apply Permutation_app_tail, Permutation_app_comm.
    + apply SSapp. split; [exact Sf|]. split; [exact Sr|]. intros u w Hu Hw. specialize (E3 Dx). rewrite Forall_forall in E3.
      apply (Permutation_in _ Pr) in Hw. destruct Hw as [<-|Hw]; [apply E3, Hu|]. apply in_app_iff in Hw. destruct Hw as [Hw|Hw]; [|apply Sfb; assumption].
      eapply Tr; [apply E3, Hu|]. inversion_clear S1 as [|? ? _ F]. rewrite Forall_forall in F. apply F, Hw.
Qed.
End Merge.

(** whatever the predicate, merge-list returns a rearrangement, or the predicate failed *)
Section Rearrange.
Context {V : Type} (nil : V) (pred : V -> V -> option bool).
Lemma front_perm : forall x1 l2 acc r b, ml_front pred x1 l2 acc = Ret (r, b) -> rev acc ++ l2 = r ++ b.
Proof.
  intros x1. induction l2 as [|y l2 IH]; intros acc r b E; cbn [ml_front] in E; [injection E as <- <-; reflexivity|].
  destruct (pred x1 y) as [[]|]; [injection E as <- <-; reflexivity| |discriminate]. apply IH in E. rewrite <- E. cbn. rewrite <- app_assoc. reflexivity.
Qed.
Lemma inner_perm : forall e2 rest linked x l1 p1, ml_inner nil pred linked x rest e2 = Ret (l1, p1) ->
  rev linked ++ x :: rest = rev l1 ++ match p1 with None => [] | Some (x1, b) => x1 :: b end.
Proof.
  intros e2. induction rest as [|y r IH]; intros linked x l1 p1 E; cbn [ml_inner hd] in E.
  - destruct (pred nil e2) as [[]|]; [| |discriminate]; injection E as <- <-; cbn; rewrite ?app_nil_r; reflexivity.
  - destruct (pred y e2) as [[]|]; [| |discriminate].
    + apply IH in E. rewrite <- E. cbn. rewrite <- app_assoc. reflexivity.
    + injection E as <- <-. reflexivity.
Qed.
Lemma outer_perm : forall l2 linked x rest r, ml_outer nil pred linked x rest l2 = Ret r -> Permutation r (rev linked ++ x :: rest ++ l2).
Proof.
  induction l2 as [|e2 l2 IH]; intros linked x rest r E.
  - assert (E' : Ret (rev (x :: linked) ++ rest ++ []) = Ret r) by (destruct rest; exact E). injection E' as <-. cbn. rewrite <- app_assoc. apply Permutation_refl.
  - destruct rest as [|y0 r0]; cbn [ml_outer] in E.
    + injection E as <-. cbn. rewrite <- app_assoc. apply Permutation_refl.
    + destruct (ml_inner nil pred linked x (y0 :: r0) e2) as [[l1 p1]| | |] eqn:Ei; cbn [bind] in E; try discriminate. apply inner_perm in Ei.
      change (rev linked ++ x :: (y0 :: r0) ++ e2 :: l2) with (rev linked ++ (x :: y0 :: r0) ++ e2 :: l2). rewrite app_assoc, Ei, <- app_assoc.
      destruct p1 as [[x1 b]|].
      * apply IH in E. eapply Permutation_trans; [exact E|]. cbn [rev]. rewrite <- app_assoc. apply Permutation_app_head. cbn [app]. constructor.
        apply Permutation_middle.
      * injection E as <-. apply Permutation_refl.
Qed.
Lemma merge_list_perm : forall l1 l2 r, merge_list nil pred l1 l2 = Ret r -> Permutation r (l1 ++ l2).
Proof.
  intros l1 l2 r E. unfold merge_list in E. destruct (ml_front pred (hd nil l1) l2 []) as [[f b]| | |] eqn:Ef; cbn [bind] in E; try discriminate. apply front_perm in Ef. cbn in Ef. subst l2.
  destruct l1 as [|x rest]; [injection E as <-; apply Permutation_refl|]. destruct (ml_outer nil pred [] x rest b) as [r'| | |] eqn:Eo; cbn [bind] in E; try discriminate. injection E as <-.
  apply outer_perm in Eo. eapply Permutation_trans; [apply Permutation_app_head; exact Eo|]. cbn [rev app]. change (x :: rest ++ b) with ((x :: rest) ++ b). change (x :: rest ++ f ++ b) with ((x :: rest) ++ f ++ b). rewrite !(app_assoc _ _ b). apply Permutation_app_tail, Permutation_app_comm.
Qed.
Lemma merge_list_error : (forall x y, exists b, pred x y = Some b) -> forall l1 l2, exists r, merge_list nil pred l1 l2 = Ret r.
Proof.
  intro T.
  assert (Fr : forall x1 l2 acc, exists r, ml_front pred x1 l2 acc = Ret r).
  { intros x1. induction l2 as [|y l2 IH]; intro acc; cbn [ml_front]; [eexists; reflexivity|]. destruct (T x1 y) as [[] E]; rewrite E; [eexists; reflexivity|apply IH]. }
  assert (Inn : forall e2 rest linked x, exists r, ml_inner nil pred linked x rest e2 = Ret r).
  { intros e2. induction rest as [|y r IH]; intros linked x; cbn [ml_inner hd]; [destruct (T nil e2) as [[] E]|destruct (T y e2) as [[] E]]; rewrite E; try (eexists; reflexivity). apply IH. }
  assert (Ou : forall l2 linked x rest, exists r, ml_outer nil pred linked x rest l2 = Ret r).
  { induction l2 as [|e2 l2 IH]; intros linked x rest; [destruct rest; eexists; reflexivity|]. destruct rest as [|y0 r0]; [eexists; reflexivity|]. cbn [ml_outer].
    destruct (Inn e2 (y0 :: r0) linked x) as [[l1 [[x1 b]|]] E]; rewrite E; cbn [bind]; [apply IH|eexists; reflexivity]. }
  intros l1 l2. unfold merge_list. destruct (Fr (hd nil l1) l2 []) as [[f b] E]. rewrite E. cbn [bind]. destruct l1 as [|x rest]; [eexists; reflexivity|].
  destruct (Ou b [] x rest) as [r E']. rewrite E'. cbn [bind]. eexists; reflexivity.
Qed.
End Rearrange.

Lemma find_split : forall {A} (f : A -> bool) l x, find f l = Some x -> f x = true /\ exists l1 l2, l = l1 ++ x :: l2 /\ forall y, In y l1 -> f y = false.
Proof.
  induction l as [|a l IH]; intros x E; [discriminate|]. cbn in E. destruct (f a) eqn:Fa.
  - injection E as <-. split; [exact Fa|]. exists [], l. split; [reflexivity|contradiction].
  - destruct (IH _ E) as [Fx [l1 [l2 [-> H]]]]. split; [exact Fx|]. exists (a :: l1), l2. split; [reflexivity|]. intros y [<-|Hy]; auto.
Qed.
Lemma find_app : forall {A} (f : A -> bool) l1 l2, find f (l1 ++ l2) = match find f l1 with Some x => Some x | None => find f l2 end.
Proof. induction l1 as [|a l1 IH]; intro l2; cbn; [reflexivity|]. destruct (f a); auto. Qed.

Section Search.
Context {N : Type} (eqb : N -> N -> bool).
Hypothesis eqb_spec : forall x y, eqb x y = true <-> x = y.
Variable finish : N.
Variable extend : list N -> list (list N).
Notation fin := (arrived eqb finish).

(** ** any order of treatment: the result is derived, and everything derived is met *)
Lemma derived_trans : forall p n q m r, derived extend p n q -> derived extend q m r -> derived extend p (n + m) r.
Proof.
  intros p n q m r H1 H2. induction H2 as [|m q' r H2 IH H3]; [rewrite Nat.add_0_r; exact H1|]. rewrite Nat.add_succ_r. econstructor; eauto.
Qed.
Lemma derived_front : forall p n r, derived extend p (S n) r -> exists q, In q (extend p) /\ derived extend q n r.
Proof.
  intros p n. induction n as [|n IH]; intros r H; inversion H as [|? q ? H1 H2]; subst.
  - inversion H1; subst. exists r. split; [exact H2|constructor].
  - destruct (IH _ H1) as [q' [Hq D]]. exists q'. split; [exact Hq|econstructor; eauto].
Qed.

(** one step replaces the first path of the queue by its extensions, in any order *)
Definition stepping (F : nat -> list (list N) -> answer N) (next : list N -> list (list N) -> option (list (list N))) : Prop :=
  (forall q, F 0 q = Stuck) /\
  (forall f, F (S f) [] = NoPath) /\
  (forall f p rest, F (S f) (p :: rest) = if fin p then Found (rev p) else match next p rest with Some q => F f q | None => Fail end).
Definition fair (next : list N -> list (list N) -> option (list (list N))) : Prop :=
  forall p rest q, next p rest = Some q -> Permutation q (extend p ++ rest).

Definition from (queue : list (list N)) (r : list N) : Prop := exists p n, In p queue /\ derived extend p n r.

Lemma from_step : forall next p rest q r, fair next -> next p rest = Some q -> from q r -> from (p :: rest) r.
Proof.
  intros next p rest q r Fr E [s [n [Hs D]]]. apply (Permutation_in _ (Fr _ _ _ E)) in Hs. apply in_app_iff in Hs. destruct Hs as [Hs|Hs].
  - exists p, (1 + n). split; [left; reflexivity|]. eapply derived_trans; [|exact D]. econstructor; [constructor|exact Hs].
  - exists s, n. split; [right; exact Hs|exact D].
Qed.
Lemma from_keep : forall next p rest q r, fair next -> next p rest = Some q -> fin p = false -> fin r = true -> from (p :: rest) r -> from q r.
Proof.
  intros next p rest q r Fr E Np Nr [s [n [Hs D]]]. destruct Hs as [<-|Hs].
  - destruct n as [|n]; [inversion D; subst; congruence|]. apply derived_front in D. destruct D as [s [Hs D]]. exists s, n. split; [|exact D].
    apply (Permutation_in _ (Permutation_sym (Fr _ _ _ E))). apply in_app_iff. left. exact Hs.
  - exists s, n. split; [|exact D]. apply (Permutation_in _ (Permutation_sym (Fr _ _ _ E))). apply in_app_iff. right. exact Hs.
Qed.

Lemma sound : forall F next, stepping F next -> fair next -> forall f q l, F f q = Found l -> exists r, l = rev r /\ fin r = true /\ from q r.
Proof.
  intros F next [S0 [S1 S2]] Fr. induction f as [|f IH]; intros q l E; [rewrite S0 in E; discriminate|].
  destruct q as [|p rest]; [rewrite S1 in E; discriminate|]. rewrite S2 in E. destruct (fin p) eqn:Fp.
  - injection E as <-. exists p. split; [reflexivity|]. split; [exact Fp|]. exists p, 0. split; [left; reflexivity|constructor].
  - destruct (next p rest) as [q|] eqn:En; [|discriminate]. destruct (IH _ _ E) as [r [E1 [E2 E3]]]. exists r. split; [exact E1|]. split; [exact E2|]. eapply from_step; eauto.
Qed.
Lemma complete : forall F next, stepping F next -> fair next -> forall f q, F f q = NoPath -> forall r, fin r = true -> ~ from q r.
Proof.
  intros F next [S0 [S1 S2]] Fr. induction f as [|f IH]; intros q E r Fi; [rewrite S0 in E; discriminate|].
  destruct q as [|p rest]; [intros [? [? [[] _]]]|]. rewrite S2 in E. destruct (fin p) eqn:Fp; [discriminate|].
  destruct (next p rest) as [q|] eqn:En; [|discriminate]. intro H. exact (IH _ E r Fi (from_keep _ _ _ _ _ Fr En Fp Fi H)).
Qed.

(** ** finite trees *)
(** [d] bounds the depth below [p] *)
Fixpoint shallow (d : nat) (p : list N) : Prop :=
  match d with O => extend p = [] | S d => Forall (shallow d) (extend p) end.
Fixpoint size (d : nat) (p : list N) : nat :=
  S (match d with O => 0 | S d => list_sum (map (size d) (extend p)) end).
Lemma shallow_S : forall d p, shallow d p -> shallow (S d) p.
Proof.
  induction d as [|d IH]; intros p H.
  - cbn [shallow]. cbn [shallow] in H. rewrite H. constructor.
  - change (Forall (shallow d) (extend p)) in H. change (Forall (shallow (S d)) (extend p)). eapply Forall_impl; [|exact H]. exact IH.
Qed.
Lemma size_S : forall d p, shallow d p -> size (S d) p = size d p.
Proof.
  induction d as [|d IH]; intros p H.
  - cbn [shallow] in H. cbn [size]. rewrite H. reflexivity.
  - change (Forall (shallow d) (extend p)) in H. change (S (list_sum (map (size (S d)) (extend p))) = S (list_sum (map (size d) (extend p)))).
    do 2 f_equal. apply map_ext_in. intros q Hq. apply IH. rewrite Forall_forall in H. auto.
Qed.
Lemma list_sum_perm : forall l l', Permutation l l' -> list_sum l = list_sum l'.
Proof. induction 1; unfold list_sum in *; cbn [fold_right] in *; lia. Qed.

Lemma ends : forall F next, stepping F next -> fair next -> forall d f q, Forall (shallow d) q -> list_sum (map (size d) q) < f -> F f q <> Stuck.
Proof.
  intros F next [S0 [S1 S2]] Fr d. induction f as [|f IH]; intros q Sh Lt; [lia|].
  destruct q as [|p rest]; [rewrite S1; discriminate|]. rewrite S2. destruct (fin p) eqn:Fp; [discriminate|].
  destruct (next p rest) as [q|] eqn:En; [|discriminate]. pose proof (Fr _ _ _ En) as P. inversion_clear Sh as [|? ? Hp Hr].
  assert (He : Forall (shallow d) (extend p)). { destruct d as [|d]; cbn in Hp; [rewrite Hp; constructor|]. eapply Forall_impl; [|exact Hp]. exact (shallow_S d). }
  apply IH.
  - eapply Permutation_Forall; [apply Permutation_sym; exact P|]. apply Forall_app. split; assumption.
  - rewrite (list_sum_perm _ _ (Permutation_map _ P)). rewrite map_app, list_sum_app. cbn [map list_sum fold_right] in Lt.
    change (fold_right Nat.add 0 (map (size d) rest)) with (list_sum (map (size d) rest)) in Lt.
    assert (E : size d p = S (list_sum (map (size d) (extend p)))).
    { destruct d as [|d]; cbn in Hp.
      - cbn. rewrite Hp. reflexivity.
      - cbn [size]. do 2 f_equal. apply map_ext_in. intros q0 Hq. symmetry. apply size_S. rewrite Forall_forall in Hp. auto. }
    lia.
Qed.

Lemma fuel_more : forall F next, stepping F next -> forall f q, F f q <> Stuck -> F (S f) q = F f q.
Proof.
  intros F next [S0 [S1 S2]]. induction f as [|f IH]; intros q H; [rewrite S0 in H; contradiction|].
  destruct q as [|p rest]; [rewrite !S1; reflexivity|]. rewrite S2 in H. rewrite S2. rewrite (S2 f). destruct (fin p); [reflexivity|].
  destruct (next p rest) as [q|]; [|reflexivity]. apply IH, H.
Qed.

(** ** the five functions *)
Definition next_df p rest : option (list (list N)) := Some (extend p ++ rest).
Definition next_bf p rest : option (list (list N)) := Some (rest ++ extend p).
Lemma df_stepping : stepping (depth_first eqb finish extend) next_df. Proof. repeat split. Qed.
Lemma bf_stepping : stepping (breadth_first eqb finish extend) next_bf. Proof. repeat split. Qed.
Lemma df_fair : fair next_df. Proof. intros p rest q E. injection E as <-. apply Permutation_refl. Qed.
Lemma bf_fair : fair next_bf. Proof. intros p rest q E. injection E as <-. apply Permutation_app_comm. Qed.

Variables (ev : list N -> list N -> bool) (evnil : list N -> option bool) (R : list N -> list N -> Prop).
Hypothesis P1 : forall x y, ev x y = true -> R x y.
Hypothesis P2 : forall x y, ev x y = false -> R y x.
Hypothesis Tr : forall x y z, R x y -> R y z -> R x z.
Lemma sortp_ok : forall l, Permutation (sortp ev l) l /\ StronglySorted R (sortp ev l).
Proof. intro l. exact (qsort_ok ev R l P1 P2 Tr). Qed.
Lemma sortp_perm : forall l, Permutation (sortp ev l) l.
Proof. intro l. apply msort_perm. Qed.
Definition next_hc p rest : option (list (list N)) := Some (sortp ev (extend p) ++ rest).
Definition next_bb p rest : option (list (list N)) := Some (sortp ev (extend p ++ rest)).
Definition next_be p rest : option (list (list N)) := match merge_list [] (pred ev evnil) (sortp ev (extend p)) rest with Ret q => Some q | _ => None end.
Lemma hc_stepping : stepping (hill_climb eqb finish extend ev) next_hc. Proof. repeat split. Qed.
Lemma bb_stepping : stepping (branch_and_bound eqb finish extend ev) next_bb. Proof. repeat split. Qed.
Lemma be_stepping : stepping (best_first eqb finish extend ev evnil) next_be.
Proof.
  repeat split. intros f p rest. cbn [best_first]. unfold next_be. destruct (arrived eqb finish p); [reflexivity|].
  destruct (merge_list [] (pred ev evnil) (sortp ev (extend p)) rest); reflexivity.
Qed.
Lemma hc_fair : fair next_hc. Proof. intros p rest q E. injection E as <-. apply Permutation_app_tail. apply sortp_perm. Qed.
Lemma bb_fair : fair next_bb. Proof. intros p rest q E. injection E as <-. apply sortp_perm. Qed.

(** ** breadth first *)
Lemma bf_level : forall q1 q2 f, Forall (fun p => fin p = false) q1 ->
  breadth_first eqb finish extend (length q1 + f) (q1 ++ q2) = breadth_first eqb finish extend f (q2 ++ flat_map extend q1).
Proof.
  induction q1 as [|p q1 IH]; intros q2 f H; cbn [length app plus flat_map]; [rewrite app_nil_r; reflexivity|].
  inversion_clear H as [|? ? Hp H1]. cbn [breadth_first]. rewrite Hp. rewrite <- app_assoc. rewrite IH by exact H1. rewrite <- app_assoc. reflexivity.
Qed.
Fixpoint level (start : list N) (n : nat) : list (list N) := match n with O => [start] | S n => flat_map extend (level start n) end.
Lemma level_derived : forall start n p, In p (level start n) <-> derived extend start n p.
Proof.
  intros start. induction n as [|n IH]; intro p; cbn [level].
  - split; [intros [<-|[]]; constructor|intro H; inversion H; subst; left; reflexivity].
  - rewrite in_flat_map. split.
    + intros [q [Hq Hp]]. econstructor; [apply IH; exact Hq|exact Hp].
    + intro H. inversion H as [|? q ? H1 H2]; subst. exists q. split; [apply IH; exact H1|exact H2].
Qed.
Lemma bf_reach : forall start n, (forall m q, m < n -> derived extend start m q -> fin q = false) ->
  exists g, forall f, breadth_first eqb finish extend (g + f) [start] = breadth_first eqb finish extend f (level start n).
Proof.
  intros start. induction n as [|n IH]; intro H; [exists 0; reflexivity|].
  destruct IH as [g Hg]; [intros m q Hm D; apply (H m q); [lia|exact D]|]. exists (g + length (level start n)). intro f. rewrite <- Nat.add_assoc, Hg. cbn [level].
  rewrite <- (app_nil_r (level start n)) at 2. rewrite bf_level; [reflexivity|]. apply Forall_forall. intros q Hq. apply (H n q); [lia|]. apply level_derived, Hq.
Qed.
Lemma bf_shortest : forall start n p, derived extend start n p -> fin p = true ->
  exists m r g, m <= n /\ derived extend start m r /\ fin r = true /\ (forall k q, k < m -> derived extend start k q -> fin q = false) /\
    forall f, g <= f -> breadth_first eqb finish extend f [start] = Found (rev r).
Proof.
  intros start n. induction n as [n IH] using (well_founded_induction lt_wf). intros p D Fp.
  assert (C : (exists k q, k < n /\ derived extend start k q /\ fin q = true) \/ (forall k q, k < n -> derived extend start k q -> fin q = false)).
  { clear. induction n as [|n IH]; [right; intros; lia|]. destruct IH as [[k [q [Hk [D Fq]]]]|H]; [left; exists k, q; split; [lia|auto]|].
    destruct (find fin (level start n)) as [q|] eqn:E.
    - apply find_some in E. left. exists n, q. split; [lia|]. split; [apply level_derived; apply E|apply E].
    - right. intros k q Hk D. destruct (Nat.eq_dec k n) as [->|Nk]; [|apply (H k q); [lia|exact D]]. apply (find_none _ _ E). apply level_derived, D. }
  destruct C as [[k [q [Hk [Dk Fq]]]]|C].
  - destruct (IH k Hk q Dk Fq) as [m [r [g [Hm [Dr [Fr [Mi Hg]]]]]]]. exists m, r, g. split; [lia|]. auto.
  - destruct (bf_reach start n C) as [g Hg].
    destruct (find fin (level start n)) as [r|] eqn:E; [|apply level_derived in D; rewrite (find_none _ _ E p D) in Fp; discriminate].
    apply find_split in E. destruct E as [Fr [l1 [l2 [El Hl]]]].
    exists n, r, (g + (length l1 + 1)). split; [lia|]. split; [apply level_derived; rewrite El; apply in_app_iff; right; left; reflexivity|].
    split; [exact Fr|]. split; [exact C|]. intros f Hf. replace f with (g + (length l1 + S (f - g - length l1 - 1))) by lia. rewrite Hg, El, bf_level by (apply Forall_forall; exact Hl).
    cbn [app breadth_first]. rewrite Fr. reflexivity.
Qed.

(** ** best first and branch and bound: the queue stays sorted *)
Section Best.
Hypothesis mono : forall p q, In q (extend p) -> R p q.
Lemma derived_R : forall p n q, derived extend p n q -> p = q \/ R p q.
Proof. induction 1 as [|n q r H IH Hr]; [left; reflexivity|]. right. destruct IH as [->|IH]; [auto|eapply Tr; eauto]. Qed.
Lemma R_refl : forall x, R x x. Proof. intro x. destruct (ev x x) eqn:E; auto. Qed.
Lemma best : forall F next, stepping F next -> fair next -> (forall p rest q, StronglySorted R (p :: rest) -> next p rest = Some q -> StronglySorted R q) ->
  forall f q l, StronglySorted R q -> F f q = Found l -> forall r, fin r = true -> from q r -> R (rev l) r.
Proof.
  intros F next [S0 [S1 S2]] Fr Srt. induction f as [|f IH]; intros q l So E r Fi H; [rewrite S0 in E; discriminate|].
  destruct q as [|p rest]; [rewrite S1 in E; discriminate|]. rewrite S2 in E. destruct (fin p) eqn:Fp.
  - injection E as <-. rewrite rev_involutive. destruct H as [s [n [Hs D]]]. apply derived_R in D.
    assert (Rs : R p s). { destruct Hs as [<-|Hs]; [apply R_refl|]. inversion_clear So as [|? ? _ Fa]. rewrite Forall_forall in Fa. auto. }
    destruct D as [->|D]; [exact Rs|eapply Tr; eauto].
  - destruct (next p rest) as [q|] eqn:En; [|discriminate]. apply (IH q l); [exact (Srt _ _ _ So En)|exact E|exact Fi|]. eapply from_keep; eauto.
Qed.
End Best.
Lemma bb_sorted : forall p rest q, StronglySorted R (p :: rest) -> next_bb p rest = Some q -> StronglySorted R q.
Proof. intros p rest q _ E. injection E as <-. apply sortp_ok. Qed.

(** merge with an evaluator that answers on NIL *)
Hypothesis Nz : forall p q, In q (extend p) -> q <> [].
Lemma be_next : (forall y, exists b, evnil y = Some b) -> forall p rest, Forall (fun x => x <> []) rest -> StronglySorted R rest ->
  exists q, next_be p rest = Some q /\ Permutation q (extend p ++ rest) /\ StronglySorted R q.
Proof.
  intros En p rest Nr So. destruct (sortp_ok (extend p)) as [Ps Ss].
  destruct (merge_tot [] (pred ev evnil) R Tr (fun x => x <> [])) with (l1 := sortp ev (extend p)) (l2 := rest) as [q [E [P S]]].
  - intros x y Hx _. destruct x; [contradiction|]. cbn [pred]. eexists; reflexivity.
  - intros x y Hx _ E. destruct x; [contradiction|]. cbn [pred] in E. injection E as E. auto.
  - intros x y Hx _ E. destruct x; [contradiction|]. cbn [pred] in E. injection E as E. auto.
  - intros y _. exact (En y).
  - eapply Permutation_Forall; [apply Permutation_sym; exact Ps|]. apply Forall_forall. apply Nz.
  - exact Nr.
  - exact Ss.
  - exact So.
  - exists q. unfold next_be. rewrite E. split; [reflexivity|]. split; [|exact S]. eapply Permutation_trans; [exact P|]. apply Permutation_app_tail. exact Ps.
Qed.
Lemma be_fair : fair next_be.
Proof.
  intros p rest q E. unfold next_be in E. destruct (merge_list [] (pred ev evnil) (sortp ev (extend p)) rest) as [r| | |] eqn:Em; try discriminate. injection E as <-.
  eapply Permutation_trans; [apply (merge_list_perm _ _ _ _ _ Em)|]. apply Permutation_app_tail. apply sortp_perm.
Qed.
Lemma be_sorted : (forall y, exists b, evnil y = Some b) -> forall p rest q, Forall (fun x => x <> []) rest -> StronglySorted R (p :: rest) -> next_be p rest = Some q -> StronglySorted R q.
Proof.
  intros En p rest q Nr So E. inversion_clear So as [|? ? So' _]. destruct (be_next En p rest Nr So') as [q' [E' [_ S]]]. rewrite E in E'. injection E' as <-. exact S.
Qed.
Lemma be_best : (forall y, exists b, evnil y = Some b) -> (forall p q, In q (extend p) -> R p q) ->
  forall f q l, Forall (fun x => x <> []) q -> StronglySorted R q -> best_first eqb finish extend ev evnil f q = Found l -> forall r, fin r = true -> from q r -> R (rev l) r.
Proof.
  intros En mono. induction f as [|f IH]; intros q l Nq So E r Fi H; [discriminate|].
  destruct q as [|p rest]; [discriminate|]. destruct be_stepping as [_ [_ S2]]. rewrite S2 in E. inversion_clear Nq as [|? ? Np Nr]. destruct (fin p) eqn:Fp.
  - injection E as <-. rewrite rev_involutive. destruct H as [s [n [Hs D]]]. apply (derived_R mono) in D.
    assert (Rs : R p s). { destruct Hs as [<-|Hs]; [apply R_refl|]. inversion_clear So as [|? ? _ Fa]. rewrite Forall_forall in Fa. auto. }
    destruct D as [->|D]; [exact Rs|eapply Tr; eauto].
  - destruct (next_be p rest) as [q|] eqn:En'; [|discriminate]. apply (IH q l).
    + eapply Permutation_Forall; [apply Permutation_sym; exact (be_fair _ _ _ En')|]. apply Forall_app. split; [apply Forall_forall; apply Nz|exact Nr].
    + exact (be_sorted En _ _ _ Nr So En').
    + exact E.
    + exact Fi.
    + eapply from_keep; [exact be_fair|exact En'|exact Fp|exact Fi|exact H].
Qed.
Lemma be_no_fail : (forall y, exists b, evnil y = Some b) -> forall f q, best_first eqb finish extend ev evnil f q <> Fail.
Proof.
  intros En. induction f as [|f IH]; intros q; [discriminate|].
  destruct q as [|p rest]; [discriminate|]. destruct be_stepping as [_ [_ S2]]. rewrite S2. destruct (fin p) eqn:Fp; [discriminate|].
  destruct (merge_list_error [] (pred ev evnil)) with (l1 := sortp ev (extend p)) (l2 := rest) as [r E].
  { intros [|x0 x] y; [exact (En y)|]. eexists; reflexivity. }
  unfold next_be. rewrite E. apply IH.
Qed.
End Search.

(** ** depth first: preorder *)
Section Preorder.
Context {N : Type} (eqb : N -> N -> bool).
Hypothesis eqb_spec : forall x y, eqb x y = true <-> x = y.
Variable finish : N.
Variable extend : list N -> list (list N).
Notation fin := (arrived eqb finish).
Fixpoint pre (d : nat) (p : list N) : list (list N) := p :: match d with O => [] | S d => flat_map (pre d) (extend p) end.
Lemma pre_S : forall d p, shallow extend d p -> pre (S d) p = pre d p.
Proof.
  induction d as [|d IH]; intros p H.
  - cbn [shallow] in H. cbn [pre]. rewrite H. reflexivity.
  - change (Forall (shallow extend d) (extend p)) in H. change (p :: flat_map (pre (S d)) (extend p) = p :: flat_map (pre d) (extend p)). f_equal.
    rewrite !flat_map_concat_map. f_equal. apply map_ext_in. intros q Hq. apply IH. rewrite Forall_forall in H. auto.
Qed.
Lemma pre_extend : forall d p, shallow extend d p -> pre d p = p :: flat_map (pre d) (extend p).
Proof.
  intros d p H. rewrite <- (pre_S d p H). reflexivity.
Qed.
Lemma shallow_kids : forall d p, shallow extend d p -> Forall (shallow extend d) (extend p).
Proof. intros [|d] p H; cbn in H; [rewrite H; constructor|]. eapply Forall_impl; [|exact H]. exact (shallow_S extend d). Qed.
Lemma df_pre : forall d f q, Forall (shallow extend d) q -> depth_first eqb finish extend f q <> Stuck ->
  depth_first eqb finish extend f q = match find fin (flat_map (pre d) q) with Some r => Found (rev r) | None => NoPath end.
Proof.
  intros d. induction f as [|f IH]; intros q Sh H; [contradiction H; reflexivity|]. destruct q as [|p rest]; [reflexivity|].
  inversion_clear Sh as [|? ? Hp Hr]. cbn [depth_first flat_map] in *. rewrite (pre_extend d p Hp). cbn [app find]. destruct (fin p) eqn:Fp; [reflexivity|].
  rewrite IH; [|apply Forall_app; split; [apply shallow_kids; exact Hp|exact Hr]|exact H]. rewrite flat_map_app. reflexivity.
Qed.
Lemma pre_derived : forall d p r, In r (pre d p) -> exists n, derived extend p n r.
Proof.
  induction d as [|d IH]; intros p r [<-|H]; try (exists 0; constructor); [contradiction|]. apply in_flat_map in H. destruct H as [k [Hk Hr]]. destruct (IH _ _ Hr) as [n D].
  exists (1 + n). eapply derived_trans; [|exact D]. econstructor; [constructor|exact Hk].
Qed.
Lemma derived_pre : forall n p r d, derived extend p n r -> shallow extend d p -> In r (pre d p).
Proof.
  induction n as [|n IH]; intros p r d D Sh.
  - inversion D; subst. destruct d; left; reflexivity.
  - apply derived_front in D. destruct D as [q [Hq D]]. rewrite (pre_extend d p Sh). right. apply in_flat_map. exists q. split; [exact Hq|]. apply IH; [exact D|].
    pose proof (shallow_kids d p Sh) as F. rewrite Forall_forall in F. auto.
Qed.

(** extensions put one new node in front *)
Hypothesis simple : forall p q, In q (extend p) -> exists n, q = n :: p /\ ~ In n p.
Definition suffix (s r : list N) : Prop := exists a, r = a ++ s.
Lemma derived_suffix : forall p n r, derived extend p n r -> suffix p r.
Proof. induction 1 as [|n q r H [a E] Hr]; [exists []; reflexivity|]. apply simple in Hr. destruct Hr as [x [-> _]]. exists (x :: a). rewrite E. reflexivity. Qed.
Lemma derived_fin : forall p n r, fin p = true -> derived extend p n r -> fin r = true -> r = p.
Proof.
  intros p n r Fp D Fr. destruct n as [|n]; [inversion D; reflexivity|]. inversion D as [|? q ? D' H]; subst. apply simple in H. destruct H as [x [-> Nx]].
  apply derived_suffix in D'. destruct D' as [a ->]. destruct p as [|y p]; [discriminate|]. cbn in Fp, Fr. apply eqb_spec in Fp. apply eqb_spec in Fr. subst. contradiction Nx. apply in_app_iff. right. left. reflexivity.
Qed.
Lemma list_dec : forall a b : list N, a = b \/ a <> b.
Proof.
  induction a as [|x a IH]; intros [|y b]; try (right; discriminate); [left; reflexivity|]. destruct (eqb x y) eqn:E.
  - apply eqb_spec in E. subst. destruct (IH b) as [->|H]; [left; reflexivity|right; congruence].
  - right. intro H. injection H as -> _. assert (Q : eqb y y = true) by (apply eqb_spec; reflexivity). congruence.
Qed.
Lemma find_flat : forall {A B} (g : A -> list B) (h : B -> bool) l r, find h (flat_map g l) = Some r ->
  exists l1 k l2, l = l1 ++ k :: l2 /\ find h (flat_map g l1) = None /\ find h (g k) = Some r.
Proof.
  induction l as [|a l IH]; intros r E; [discriminate|]. cbn in E. rewrite find_app in E. destruct (find h (g a)) as [x|] eqn:Ea.
  - injection E as <-. exists [], a, l. split; [reflexivity|]. split; [reflexivity|exact Ea].
  - destruct (IH _ E) as [l1 [k [l2 [-> [E1 E2]]]]]. exists (a :: l1), k, l2. split; [reflexivity|]. split; [|exact E2]. cbn. rewrite find_app, Ea. exact E1.
Qed.
Lemma pre_first : forall d p r, find fin (pre d p) = Some r -> forall r', In r' (pre d p) -> fin r' = true ->
  r' = r \/ exists c x y, In (y :: c) (extend c) /\ before (extend c) (x :: c) (y :: c) /\ suffix (x :: c) r /\ suffix (y :: c) r'.
Proof.
  induction d as [|d IH]; intros p r E r' Hr' Fr'.
  - cbn [pre find] in E. destruct Hr' as [<-|[]]. rewrite Fr' in E. injection E as <-. left. reflexivity.
  - cbn [pre find] in E. destruct (fin p) eqn:Fp.
    + injection E as <-. left. destruct (pre_derived _ _ _ Hr') as [n D]. exact (derived_fin _ _ _ Fp D Fr').
    + destruct Hr' as [<-|Hr']; [congruence|]. apply find_flat in E. destruct E as [l1 [k [l2 [El [E1 E2]]]]].
      change (In r' (flat_map (pre d) (extend p))) in Hr'. apply in_flat_map in Hr'. destruct Hr' as [k' [Hk' Hr']].
      destruct (list_dec k k') as [->|Nk]; [exact (IH _ _ E2 _ Hr' Fr')|]. right.
      assert (Hk : In k (extend p)) by (rewrite El; apply in_app_iff; right; left; reflexivity).
      destruct (simple _ _ Hk) as [x [Ex _]]. destruct (simple _ _ Hk') as [y [Ey _]]. exists p, x, y. rewrite <- Ex, <- Ey. split; [exact Hk'|]. split; [|split].
      * split; [exact Nk|]. exists l1, l2. split; [exact El|]. intro H. assert (Q : In r' (flat_map (pre d) l1)) by (apply in_flat_map; exists k'; auto).
        rewrite (find_none _ _ E1 _ Q) in Fr'. discriminate.
      * apply find_some in E2. destruct E2 as [E2 _]. destruct (pre_derived _ _ _ E2) as [n D]. exact (derived_suffix _ _ _ D).
      * destruct (pre_derived _ _ _ Hr') as [n D]. exact (derived_suffix _ _ _ D).
Qed.
End Preorder.

(** ** extend-wing and routes *)
Section Graph.
Context {N : Type} (eqb : N -> N -> bool).
Hypothesis eqb_spec : forall x y, eqb x y = true <-> x = y.
Variable succ : N -> list N.
Notation ext := (extend_wing eqb succ).
Lemma memb_spec : forall x l, memb eqb x l = true <-> In x l.
Proof.
  intros x l. unfold memb. rewrite existsb_exists. split; [intros [y [Hy E]]; apply eqb_spec in E; subst; exact Hy|]. intro H. exists x. split; [exact H|apply eqb_spec; reflexivity].
Qed.
Lemma ext_spec : forall p q, In q (ext p) <-> exists a t x, p = a :: t /\ q = x :: p /\ In x (succ a) /\ ~ In x p.
Proof.
  intros [|a t] q; cbn [extend_wing].
  - split; [contradiction|]. intros [a [t [x [E _]]]]. discriminate.
  - rewrite in_map_iff. split.
    + intros [x [<- H]]. apply filter_In in H. destruct H as [H1 H2]. exists a, t, x. split; [reflexivity|]. split; [reflexivity|]. split; [exact H1|].
      intro H. apply memb_spec in H. rewrite H in H2. discriminate.
    + intros [a' [t' [x [E [-> [H1 H2]]]]]]. injection E as <- <-. exists x. split; [reflexivity|]. apply filter_In. split; [exact H1|].
      destruct (memb eqb x (a :: t)) eqn:M; [apply memb_spec in M; contradiction|reflexivity].
Qed.
Lemma ext_simple : forall p q, In q (ext p) -> exists n, q = n :: p /\ ~ In n p.
Proof. intros p q H. apply ext_spec in H. destruct H as [a [t [x [_ [-> [_ Nx]]]]]]. exists x. split; [reflexivity|exact Nx]. Qed.
Lemma ext_nonnil : forall p q, In q (ext p) -> q <> [].
Proof. intros p q H. apply ext_simple in H. destruct H as [n [-> _]]. discriminate. Qed.

Lemma route_snoc : forall a b l c, route succ a b l -> In c (succ b) -> route succ a c (l ++ [c]).
Proof.
  induction 1 as [a|a b d l H1 H2 IH]; intro Hc; cbn [app].
  - eapply route_step; [exact Hc|constructor].
  - eapply route_step; [exact H1|exact (IH Hc)].
Qed.
Lemma route_last : forall a b l, route succ a b l -> (a = b /\ l = [a]) \/ exists l' b', l = l' ++ [b] /\ route succ a b' l' /\ In b (succ b').
Proof.
  induction 1 as [a|a b c l H1 H2 IH]; [left; auto|]. right. destruct IH as [[-> ->]|[l' [b' [-> [H3 H4]]]]].
  - exists [a], a. split; [reflexivity|]. split; [constructor|exact H1].
  - exists (a :: l'), b'. split; [reflexivity|]. split; [econstructor; eauto|exact H4].
Qed.
Lemma route_head : forall a b l, route succ a b l -> exists t, l = a :: t.
Proof. intros a b l H. inversion H; eexists; reflexivity. Qed.
Lemma route_suffix : forall u c b a v, route succ c b (u ++ a :: v) -> route succ a b (a :: v).
Proof.
  induction u as [|x u IH]; intros c b a v H; cbn [app] in H.
  - destruct (route_head _ _ _ H) as [t E]. injection E as -> ->. exact H.
  - inversion H as [|? ? c' ? H1 H2]; subst; [destruct u; discriminate|]. exact (IH _ _ _ _ H2).
Qed.
Lemma route_simple : forall a b l, route succ a b l -> exists l', route succ a b l' /\ NoDup l' /\ length l' <= length l.
Proof.
  induction 1 as [a|a b c l H1 H2 [l' [R [Nd Le]]]].
  - exists [a]. split; [constructor|]. split; [constructor; [intros []|constructor]|lia].
  - destruct (memb eqb a l') eqn:M.
    + apply memb_spec in M. apply in_split in M. destruct M as [u [v ->]]. exists (a :: v). split; [exact (route_suffix _ _ _ _ _ R)|]. split.
      * clear -Nd. induction u as [|x u IH]; [exact Nd|]. inversion_clear Nd; auto.
      * rewrite app_length in Le. cbn in *. lia.
    + exists (a :: l'). split; [econstructor; eauto|]. split; [constructor; [|exact Nd]|cbn; lia]. intro H. apply memb_spec in H. congruence.
Qed.

Lemma derived_route : forall a n p, derived ext [a] n p -> exists b t, p = b :: t /\ route succ a b (rev p) /\ NoDup p /\ length p = S n.
Proof.
  intros a n p H. induction H as [|n q r H [b [t [-> [R [Nd L]]]]] Hr].
  - exists a, []. split; [reflexivity|]. split; [constructor|]. split; [constructor; [intros []|constructor]|reflexivity].
  - apply ext_spec in Hr. destruct Hr as [b' [t' [x [E [-> [Hx Nx]]]]]]. injection E as <- <-. exists x, (b :: t). split; [reflexivity|]. split.
    + change (rev (x :: b :: t)) with (rev (b :: t) ++ [x]). exact (route_snoc _ _ _ _ R Hx).
    + split; [constructor; assumption|cbn [length] in *; lia].
Qed.
Lemma route_derived : forall l a b, route succ a b l -> NoDup l -> derived ext [a] (length l - 1) (rev l).
Proof.
  intro l. remember (length l) as n eqn:En. revert l En. induction n as [n IH] using (well_founded_induction lt_wf). intros l En a b H Nd.
  destruct (route_last _ _ _ H) as [[<- ->]|[l' [b' [-> [H' Hb]]]]].
  - subst n. constructor.
  - rewrite app_length in En. cbn in En. destruct (route_head _ _ _ H') as [t Et]. assert (L : length l' = S (length t)) by (rewrite Et; reflexivity).
    assert (Nd' : NoDup l' /\ ~ In b l').
    { apply (Permutation_NoDup (Permutation_app_comm l' [b])) in Nd. inversion_clear Nd. split; assumption. }
    assert (D : derived ext [a] (length l' - 1) (rev l')). { apply (IH (length l')) with (b := b'); [lia|reflexivity|exact H'|apply Nd']. }
    rewrite rev_app_distr. cbn [rev app]. replace (n - 1) with (S (length l' - 1)) by lia. econstructor; [exact D|].
    apply ext_spec. destruct (route_last _ _ _ H') as [[<- ->]|[l2 [b2 [-> _]]]].
    + exists a, [], b. cbn. repeat split; auto. apply Nd'.
    + rewrite rev_app_distr. cbn [rev app]. exists b', (rev l2), b. repeat split; auto. destruct Nd' as [_ Nb]. intro Q. apply Nb. apply in_app_iff. destruct Q as [<-|Q]; [right; left; reflexivity|left; apply in_rev; exact Q].
Qed.

Lemma filter_split : forall {A} (g : A -> bool) s k1 x k2, filter g s = k1 ++ x :: k2 -> exists s1 s2, s = s1 ++ x :: s2 /\ filter g s1 = k1.
Proof.
  induction s as [|a s IH]; intros k1 x k2 E; cbn in E; [destruct k1; discriminate|]. destruct (g a) eqn:Ga.
  - destruct k1 as [|k0 k1].
    + injection E as -> _. exists [], s. split; reflexivity.
    + injection E as <- E. destruct (IH _ _ _ E) as [s1 [s2 [-> H]]]. exists (a :: s1), s2. split; [reflexivity|]. cbn. rewrite Ga, H. reflexivity.
  - destruct (IH _ _ _ E) as [s1 [s2 [-> H]]]. exists (a :: s1), s2. split; [reflexivity|]. cbn. rewrite Ga. exact H.
Qed.
Lemma before_wing : forall b t x y, ~ In y (b :: t) -> before (ext (b :: t)) (x :: b :: t) (y :: b :: t) -> before (succ b) x y.
Proof.
  intros b t x y Ny [Nxy [l1 [l2 [E Nl]]]]. split; [intros ->; contradiction|]. cbn [extend_wing] in E. apply map_eq_app in E. destruct E as [k1 [k2 [E [E1 E2]]]].
  destruct k2 as [|x' k2]; [discriminate|]. injection E2 as -> _. destruct (filter_split _ _ _ _ _ E) as [s1 [s2 [Es Ef]]]. exists s1, s2. split; [exact Es|].
  intro H. apply Nl. rewrite <- E1. apply in_map_iff. exists y. split; [reflexivity|]. rewrite <- Ef. apply filter_In. split; [exact H|].
  destruct (memb eqb y (b :: t)) eqn:M; [apply memb_spec in M; contradiction|reflexivity].
Qed.
Lemma shallow_graph : forall nodes, (forall a b, In a nodes -> In b (succ a) -> In b nodes) ->
  forall d p, NoDup p -> incl p nodes -> length nodes <= d + length p -> shallow ext d p.
Proof.
  intros nodes Cl. induction d as [|d IH]; intros p Nd Inc L.
  - cbn [shallow]. destruct (ext p) as [|q r] eqn:E; [reflexivity|]. assert (H : In q (ext p)) by (rewrite E; left; reflexivity).
    apply ext_spec in H. destruct H as [a [t [x [Ep [-> [Hx Nx]]]]]].
    assert (Q : length (x :: p) <= length nodes). { apply NoDup_incl_length; [constructor; assumption|]. intros y [<-|Hy]; [|auto]. apply (Cl a); [apply Inc; subst; left; reflexivity|exact Hx]. }
    cbn in *. lia.
  - cbn [shallow]. apply Forall_forall. intros q H. apply ext_spec in H. destruct H as [a [t [x [Ep [-> [Hx Nx]]]]]]. apply IH.
    + constructor; assumption.
    + intros y [<-|Hy]; [|auto]. apply (Cl a); [apply Inc; subst; left; reflexivity|exact Hx].
    + cbn. lia.
Qed.
Lemma shallow_start : forall start, finite_from succ start -> exists d, shallow ext d [start].
Proof.
  intros start [nodes [Hs Cl]]. exists (length nodes). apply (shallow_graph nodes Cl); [constructor; [intros []|constructor]| |lia]. intros x [<-|[]]. exact Hs.
Qed.
End Graph.

(** ** hill-climb is depth-first with sorted extensions *)
Lemma hill_depth : forall {N} (eqb : N -> N -> bool) finish extend ev f q,
  hill_climb eqb finish extend ev f q = depth_first eqb finish (fun p => sortp ev (extend p)) f q.
Proof. intros N eqb finish extend ev. induction f as [|f IH]; intros [|p q]; reflexivity. Qed.
Section Perm.
Context {N : Type} (e e' : list N -> list (list N)).
Hypothesis Pe : forall p, Permutation (e' p) (e p).
Lemma shallow_perm : forall d p, shallow e d p -> shallow e' d p.
Proof.
  induction d as [|d IH]; intros p H; cbn [shallow] in *.
  - apply Permutation_nil. rewrite <- H. apply Permutation_sym, Pe.
  - apply (Permutation_Forall (Permutation_sym (Pe p))). eapply Forall_impl; [|exact H]. exact IH.
Qed.
Lemma derived_perm : forall p n q, derived e p n q -> derived e' p n q.
Proof. induction 1 as [|n q r H IH Hr]; [constructor|]. econstructor; [exact IH|]. apply (Permutation_in _ (Permutation_sym (Pe q))). exact Hr. Qed.
End Perm.
