(** Proofs for C84: the primitives that call nothing back. *)
From Coq Require Import List Arith Bool Lia.
From Verif Require Import RootModel RootSpec RootProofs.
Import ListNotations.

Section Proofs2.
Context (env : env_t) (glob : list val) (F : Prop).
Hypothesis Henv : keeps env.
Hypothesis Hoom : oom env -> F.
Notation roots := (roots glob).
Notation cons := (RootModel.cons env glob).
Notation wp := (wp F).
Notation leaves := (leaves glob).

Lemma APPEND_ok fuel s ls t vs : sound glob s -> arg s = vs ++ [t] -> Forall2 (lst (hp s)) vs ls ->
  (forall l, In l ls -> length l < fuel) ->
  wp (APPEND env glob fuel (length (arg s))) s (leaves s (fun h v => chain h v (concat ls) t)).
Proof.
  intros L Ea Hl Hf. unfold APPEND. rewrite Ea, app_length. cbn [length]. rewrite Nat.add_1_r. apply wp_bind.
  apply (wp_argv F _ _ t); [rewrite Ea; apply nth_error_last|].
  eapply (wp_append_loop env glob F Henv Hoom fuel (length vs) s ls t [] t).
  - rewrite Ea, app_length. lia.
  - rewrite Ea, firstn_app, firstn_all, Nat.sub_diag. cbn [firstn]. rewrite app_nil_r. exact Hl.
  - exact Hf.
  - eapply live_incl; [|exact L]. intros v [<-|Hv]; [|exact Hv]. rewrite Ea. repeat (rewrite ?in_app_iff; cbn [In]). tauto.
  - constructor.
  - intros r' s' E1 E2 Sm L' C. rewrite app_nil_r in C. repeat split; auto.
    eapply same_cover; [|exact Sm]. apply cover_incl. inc.
Qed.

(** the state after the elements of a list have been pushed *)
Definition pushed (l : list val) (s : state) : state := St (hp s) (l ++ stk s) (arg s) (last s) (tm s).
Lemma live_pushed_arg s i v l t : live (hp s) (roots s) -> nth_error (arg s) i = Some v -> chain (hp s) v l t ->
  live (hp s) (roots (pushed (rev l) s)).
Proof.
  intros L E C. apply live_pushed; [exact L|]. apply cover_rev. eapply cover_tail.
  eapply chain_cover; [|exact C]. eapply cover_weaken; [eapply cover_arg; exact E|apply arg_roots].
Qed.

Lemma firstn_rev_split {A} n (l : list A) : rev l = rev (skipn n l) ++ rev (firstn n l).
Proof. rewrite <- rev_app_distr, firstn_skipn. reflexivity. Qed.

Lemma BUTLAST_ok fuel n s a l t : sound glob s -> nth_error (arg s) 0 = Some a -> chain (hp s) a l t -> ends (hp s) t ->
  (l = [] -> t = Nil) -> length l < fuel ->
  wp (BUTLAST env glob fuel n) s (leaves s (fun h v => lst h v (firstn (length l - n) l))).
Proof.
  intros L Ea C E Hn Hf. unfold BUTLAST. apply wp_bind. apply (wp_argv F _ _ a); [exact Ea|].
  destruct l as [|x l].
  - inversion C; subst. rewrite (Hn eq_refl). apply wp_bind. apply (wp_look_end F); [exact Logic.I|]. apply wp_ret.
    repeat split; auto using same_refl; [apply live_atom; [discriminate|exact L]|constructor].
  - inversion C as [|a' x' d l' t' E1 C1]; subst. apply wp_bind. eapply (wp_look_cons F); [exact E1|].
    apply wp_bind. eapply (wp_push_all F); [exact C|exact E|exact Hf|]. cbn [Nat.add].
    set (L0 := x :: l) in *. set (k := length L0 - n).
    replace (Nat.min (length L0) n) with (length (rev (skipn k L0))) by (rewrite rev_length, skipn_length; lia).
    apply wp_bind. apply (wp_drop F _ _ (rev (firstn k L0) ++ stk s)).
    { cbn [stk]. rewrite app_assoc, <- firstn_rev_split. reflexivity. }
    replace (length L0 - length (rev (skipn k L0))) with (length (rev (firstn k L0)))
      by (rewrite !rev_length, skipn_length, firstn_length; lia).
    eapply (wp_stacknlist env glob F Henv Hoom); [reflexivity| |].
    + cbn [hp arg last tm]. eapply live_incl; [|eapply (live_pushed_arg s); [exact L|exact Ea|exact C]].
      unfold RootModel.roots, pushed. cbn [stk arg last]. fold L0. rewrite (firstn_rev_split k L0). inc.
    + cbn [hp stk arg last]. intros r' s' F1 F2 F3 F4 F5. rewrite rev_involutive in F5.
      repeat split; [exact F1|exact F2| |exact F4|exact F5]. eapply same_cover; [|exact F3]. apply cover_incl. inc.
Qed.

Lemma wp_skip_list n : forall l s a t (Q : val -> state -> Prop), chain (hp s) a l t -> ends (hp s) t ->
  (forall rest, chain (hp s) rest (skipn n l) t -> (forall vs, cover (hp s) [a] vs -> cover (hp s) [rest] vs) -> Q rest s) ->
  wp (skip_list n a) s Q.
Proof.
  induction n as [|n IH]; intros l s a t Q C E K; cbn [skip_list].
  - apply wp_ret. apply K; [exact C|auto].
  - apply wp_bind. destruct l as [|x l]; inversion C as [|a' x' d l' t' E1 C1]; subst.
    + apply (wp_look_end F); [exact E|]. apply wp_ret. apply K; [exact C|auto].
    + eapply (wp_look_cons F); [exact E1|]. eapply IH; [exact C1|exact E|]. intros rest Hr Hc. apply K; [exact Hr|].
      intros vs Hv. apply Hc. intros b [->|[]].
      eapply reach_field; [apply Hv; left; reflexivity|exact E1|right; left; reflexivity].
Qed.

Lemma SUBSEQ_ok fuel st e s a l t : sound glob s -> nth_error (arg s) 0 = Some a -> chain (hp s) a l t -> ends (hp s) t ->
  l <> [] -> length l < fuel -> ((length l <= st \/ exists e', e = Some e' /\ e' < st) -> F) ->
  wp (SUBSEQ env glob fuel st e) s
     (leaves s (fun h v => lst h v (match e with Some e' => firstn (e' - st) (skipn st l) | None => skipn st l end))).
Proof.
  intros L Ea C E Hn Hf HF. unfold SUBSEQ.
  destruct (match e with Some e' => e' <? st | None => false end) eqn:Ee.
  { apply HF. right. destruct e as [e'|]; [|discriminate]. exists e'. split; [reflexivity|]. apply Nat.ltb_lt. exact Ee. }
  apply wp_bind. apply (wp_argv F _ _ a); [exact Ea|].
  destruct l as [|x l]; [congruence|]. inversion C as [|a' x' d l' t' E1 C1]; subst.
  apply wp_bind. eapply wp_skip_list; [exact C|exact E|]. intros rest Hr Hc.
  assert (cover (hp s) [rest] (arg s)) as Cr by (apply Hc; eapply cover_arg; exact Ea).
  set (L0 := x :: l) in *. apply wp_bind.
  destruct (skipn st L0) as [|y r] eqn:Es.
  { inversion Hr; subst. apply (wp_look_end F); [exact E|]. apply HF. left.
    assert (length (skipn st L0) = 0) as H by (rewrite Es; reflexivity). rewrite skipn_length in H. lia. }
  inversion Hr as [|b y' d' r' t'' E2 C2]; subst. eapply (wp_look_cons F); [exact E2|].
  assert (length (y :: r) < fuel) as Hf2 by (rewrite <- Es, skipn_length; lia).
  assert (forall k, live (hp s) (roots (pushed (rev (firstn k (y :: r))) s))) as Lp.
  { intros k. apply live_pushed; [exact L|]. apply cover_rev. eapply cover_trans with (vs := y :: r).
    { intros z Hz. apply reach_root. rewrite <- (firstn_skipn k (y :: r)). apply in_or_app. left. exact Hz. }
    eapply cover_tail. eapply chain_cover; [|exact Hr]. eapply cover_weaken; [exact Cr|apply arg_roots]. }
  assert (forall k, wp (stacknlist env glob (length (firstn k (y :: r)))) (pushed (rev (firstn k (y :: r))) s)
            (leaves s (fun h v => lst h v (firstn k (y :: r))))) as Hk.
  { intros k. rewrite <- (rev_length (firstn k (y :: r))).
    eapply (wp_stacknlist env glob F Henv Hoom); [reflexivity|apply Lp|].
    unfold pushed. cbn [hp stk arg last]. intros v s' F1 F2 F3 F4 F5. rewrite rev_involutive in F5.
    repeat split; [exact F1|exact F2| |exact F4|exact F5]. eapply same_cover; [|exact F3]. apply cover_incl. inc. }
  apply wp_bind. destruct e as [e'|].
  - eapply (wp_push_upto F); [exact Hr|exact E|]. intros rest' _ _. cbn [Nat.add]. apply Hk.
  - eapply (wp_push_all F); [exact Hr|exact E|exact Hf2|]. cbn [Nat.add].
    specialize (Hk (length (y :: r))). rewrite firstn_all in Hk. exact Hk.
Qed.

Lemma COPYSEQ_ok fuel s a l t : sound glob s -> nth_error (arg s) 0 = Some a -> chain (hp s) a l t -> ends (hp s) t ->
  length l < fuel -> wp (COPYSEQ env glob fuel) s (leaves s (fun h v => lst h v l)).
Proof.
  intros L Ea C E Hf. unfold COPYSEQ. apply wp_bind. apply (wp_argv F _ _ a); [exact Ea|].
  apply wp_bind. eapply (wp_push_all F); [exact C|exact E|exact Hf|]. cbn [Nat.add]. rewrite <- rev_length.
  eapply (wp_pop_cons env glob F Henv Hoom); [reflexivity| |constructor|].
  - apply live_atom; [discriminate|]. apply (live_pushed_arg s 0 a l t); assumption.
  - cbn [hp stk arg last]. intros v s' F1 F2 F3 F4 F5 _. rewrite rev_involutive, app_nil_r in F5.
    repeat split; [exact F1|exact F2| |exact F4|exact F5]. eapply same_cover; [|exact F3]. apply cover_incl. inc.
Qed.

Lemma wp_reverse_loop l : forall fuel s a t r l' (Q : val -> state -> Prop),
  cover (hp s) [a] (arg s) -> chain (hp s) a l t -> ends (hp s) t -> length l < fuel ->
  live (hp s) (r :: roots s) -> lst (hp s) r l' ->
  (forall r' s', stk s' = stk s -> arg s' = arg s -> same (hp s) (hp s') (r :: stk s ++ arg s ++ glob) ->
     live (hp s') (r' :: roots s') -> lst (hp s') r' (rev l ++ l') -> Q r' s') ->
  wp (reverse_loop env glob fuel a r) s Q.
Proof.
  induction l as [|x l IH]; intros fuel s a t r l' Q Ca C E Hf L Cr K;
    (destruct fuel as [|fuel]; [cbn [length] in Hf; lia|]); cbn [reverse_loop]; cbn [length] in Hf.
  - inversion C; subst. apply wp_bind. apply (wp_look_end F); [exact E|]. apply wp_ret. apply K; auto using same_refl.
  - pose proof (chain_cover _ _ _ _ _ Ca C) as Cl.
    inversion C as [|a' x' d l0 t' E1 C1]; subst. apply wp_bind. eapply (wp_look_cons F); [exact E1|].
    apply wp_bind. apply (wp_cons env glob F Henv Hoom).
    { eapply live_cover; [|exact L]. apply cover_cons; [|apply cover_incl; inc].
      eapply cover_weaken; [eapply cover_in; [exact Cl|right; left; reflexivity]|].
      intros v Hv. right. apply arg_roots. exact Hv. }
    intros c s2 E2 E3 E4 Sm Ec L2.
    assert (same (hp s) (hp s2) (arg s)) as Sa.
    { eapply same_cover; [|exact Sm]. apply cover_incl. unfold RootModel.roots. inc. }
    assert (cover (hp s) [d] (arg s)) as Cd.
    { intros b [->|[]]. eapply reach_field; [apply Ca; left; reflexivity|exact E1|right; left; reflexivity]. }
    eapply (IH fuel s2 d t (Ptr c) (x :: l')).
    + rewrite E3. eapply same_coverage; [exact Sa|exact Cd].
    + eapply chain_same; [exact Sa|exact Cd|exact C1].
    + assert (same (hp s) (hp s2) [t]) as St.
      { eapply same_cover; [|exact Sa]. eapply cover_in; [exact Cl|left; reflexivity]. }
      destruct t as [|n|b]; [exact Logic.I..|]. destruct E as [w E]. exists w. rewrite St; [exact E|apply reach_root; left; reflexivity].
    + lia.
    + eapply live_incl; [|exact L2]. inc.
    + econstructor; [exact Ec|]. eapply chain_same; [exact Sm|apply cover_incl; inc|exact Cr].
    + intros r' s' F1 F2 F3 F4 F5. apply K; [congruence|congruence| |exact F4|cbn [rev]; rewrite <- app_assoc; exact F5].
      eapply same_trans; [|exact F3|].
      * eapply same_cover; [|exact Sm]. apply cover_incl. unfold RootModel.roots. inc.
      * rewrite E2, E3. apply cover_cons; [|apply cover_incl; inc].
        intros b [->|[]]. eapply reach_field; [apply reach_root; left; reflexivity|exact Ec|right; left; reflexivity].
Qed.
Lemma REVERSE_ok fuel s a l t : sound glob s -> nth_error (arg s) 0 = Some a -> chain (hp s) a l t -> ends (hp s) t ->
  length l < fuel -> wp (REVERSE env glob fuel) s (leaves s (fun h v => lst h v (rev l))).
Proof.
  intros L Ea C E Hf. unfold REVERSE. apply wp_bind. apply (wp_argv F _ _ a); [exact Ea|].
  eapply wp_reverse_loop; [eapply cover_arg; exact Ea|exact C|exact E|exact Hf|apply live_atom; [discriminate|exact L]|constructor|].
  intros v s' F1 F2 F3 F4 F5. rewrite app_nil_r in F5. repeat split; auto.
  eapply same_cover; [|exact F3]. apply cover_incl. inc.
Qed.

(** ** makesequence *)
Lemma wp_makeseq_sub xs B : forall s r l (Q : val -> state -> Prop),
  stk s = xs ++ B -> live (hp s) (r :: roots s) -> lst (hp s) r l ->
  (forall r' s', stk s' = B -> arg s' = arg s -> same (hp s) (hp s') (r :: B ++ arg s ++ glob) ->
     live (hp s') (r' :: roots s') -> lst (hp s') r' (rev xs ++ l) -> Q r' s') ->
  wp (makeseq_sub env glob (length xs) r) s Q.
Proof.
  induction xs as [|x xs IH]; intros s r l Q Es L C K; cbn [length makeseq_sub].
  - apply wp_ret. apply K; [exact Es|reflexivity|apply same_refl|exact L|exact C].
  - apply wp_bind. unfold RootProofs.wp at 1, push. apply wp_bind. apply (wp_alloc env glob F Henv Hoom); cbn [hp].
    { eapply live_incl; [|exact L]. unfold RootModel.roots. cbn [stk arg last]. inc. }
    intros c h' Sm Ec. cbn [stk arg tm hp].
    assert (same (hp s) h' (x :: r :: xs ++ B ++ arg s ++ glob)) as Sm'.
    { eapply same_cover; [|exact Sm]. apply cover_incl. unfold RootModel.roots. cbn [stk arg last]. rewrite Es. cbn [app]. inc. }
    assert (live (hp s) (x :: r :: xs ++ B ++ arg s ++ glob)) as L0.
    { eapply live_incl; [|exact L]. unfold RootModel.roots. rewrite Es. cbn [app]. inc. }
    clear Sm. apply wp_bind. unfold RootProofs.wp at 1, pop. cbn [stk]. apply wp_bind. unfold RootProofs.wp at 1, pop. cbn [stk].
    rewrite Es. cbn [app]. apply wp_bind. unfold RootProofs.wp at 1, store. cbn [hp]. rewrite set_eq.
    set (h2 := set (set h' c (Cons Nil Nil)) c (Cons x r)).
    assert (same h' h2 (x :: r :: xs ++ B ++ arg s ++ glob)) as S2.
    { eapply same_ext; [intros b; symmetry; apply set_set|]. apply set_same; [exact Ec|]. eapply same_live; eauto. }
    assert (same (hp s) h2 (x :: r :: xs ++ B ++ arg s ++ glob)) as S3.
    { eapply same_trans; [exact Sm'|exact S2|apply cover_incl; apply incl_refl]. }
    assert (h2 c = Some (Cons x r)) as E2 by apply set_eq.
    apply (IH _ _ (x :: l)); cbn [stk arg hp last].
    + reflexivity.
    + apply (live_incl _ _ (Ptr c :: x :: r :: xs ++ B ++ arg s ++ glob)).
      { unfold RootModel.roots. cbn [stk arg last]. inc. }
      eapply live_new; [exact E2|]. cbn [fields app].
      eapply live_incl; [|eapply same_live; [exact S3|exact L0]]. inc.
    + econstructor; [exact E2|]. eapply chain_same; [exact S3|apply cover_incl; inc|exact C].
    + intros r' s' F1 F2 F3 F4 F5. apply K; [exact F1|exact F2| |exact F4|cbn [rev]; rewrite <- app_assoc; exact F5].
      eapply same_trans; [|exact F3|].
      * eapply same_cover; [|exact S3]. apply cover_incl. inc.
      * apply cover_cons; [|apply cover_incl; inc].
        intros b [->|[]]. eapply reach_field; [apply reach_root; left; reflexivity|exact E2|right; left; reflexivity].
Qed.
Lemma wp_fill_vec xs B : forall s a w l (Q : val -> state -> Prop),
  stk s = xs ++ B -> hp s a = Some w ->
  Q (Ptr a) (St (set (hp s) a (Vec (rev xs ++ l))) B (arg s) (last s) (tm s)) ->
  wp (fill_vec (length xs) (Ptr a) l) s Q.
Proof.
  induction xs as [|x xs IH]; intros s a w l Q Es E K; cbn [length fill_vec].
  - apply wp_bind. unfold RootProofs.wp at 1, store. rewrite E. apply wp_ret. cbn [app rev] in *. subst B. exact K.
  - apply wp_bind. unfold RootProofs.wp at 1, pop. rewrite Es. cbn [app]. eapply IH; cbn [stk hp arg last tm]; [reflexivity|exact E|].
    cbn [rev] in K. rewrite <- app_assoc in K. exact K.
Qed.
Lemma wp_vector xs B s (Q : val -> state -> Prop) :
  stk s = xs ++ B -> live (hp s) (roots s) ->
  (forall a s', stk s' = B -> arg s' = arg s -> same (hp s) (hp s') (xs ++ B ++ arg s ++ glob) ->
     live (hp s') (Ptr a :: roots s') -> hp s' a = Some (Vec (rev xs)) -> Q (Ptr a) s') ->
  wp (let! r := alloc env glob (Vec (repeat Nil (length xs))) in fill_vec (length xs) r []) s Q.
Proof.
  intros Es L K. apply wp_bind. apply (wp_alloc env glob F Henv Hoom); [exact L|]. intros a h' Sm Ea.
  eapply wp_fill_vec; cbn [stk hp arg last tm]; [exact Es|apply set_eq|].
  rewrite app_nil_r. set (h2 := set (set h' a _) a _).
  assert (same h' h2 (roots s)) as S2.
  { eapply same_ext; [intros b; symmetry; apply set_set|]. apply set_same; [exact Ea|]. eapply same_live; eauto. }
  assert (same (hp s) h2 (roots s)) as S3.
  { eapply same_trans; [exact Sm|exact S2|apply cover_incl; apply incl_refl]. }
  assert (h2 a = Some (Vec (rev xs))) as E2 by apply set_eq.
  apply K; cbn [stk hp arg last]; [reflexivity|reflexivity| | |exact E2].
  - eapply same_cover; [|exact S3]. apply cover_incl. unfold RootModel.roots. rewrite Es. inc.
  - apply (live_incl _ _ (Ptr a :: roots s)).
    { unfold RootModel.roots. cbn [stk arg last]. rewrite Es. inc. }
    eapply live_new; [exact E2|]. cbn [fields]. eapply live_incl; [|eapply same_live; [exact S3|exact L]].
    unfold RootModel.roots. rewrite Es. intros v Hv. repeat (rewrite ?in_app_iff in *; rewrite <- ?in_rev in * ). tauto.
Qed.

Definition holds (t : rtype) (h : heap) (v : val) (l : list val) : Prop :=
  match t with TVec => exists a, v = Ptr a /\ h a = Some (Vec l) | _ => lst h v l end.
Lemma wp_makesequence xs B t s (Q : val -> state -> Prop) :
  stk s = xs ++ B -> live (hp s) (roots s) ->
  (forall v s', stk s' = B -> arg s' = arg s -> same (hp s) (hp s') (B ++ arg s ++ glob) ->
     live (hp s') (v :: roots s') -> holds t (hp s') v (rev xs) -> Q v s') ->
  wp (makesequence env glob (length xs) t) s Q.
Proof.
  intros Es L K. destruct t; unfold makesequence.
  - eapply (wp_stacknlist env glob F Henv Hoom); [exact Es|exact L|]. intros v s' F1 F2 F3 F4 F5. apply K; auto.
    eapply same_cover; [|exact F3]. apply cover_incl. inc.
  - eapply wp_makeseq_sub; [exact Es|apply live_atom; [discriminate|exact L]|constructor|].
    intros v s' F1 F2 F3 F4 F5. rewrite app_nil_r in F5. apply K; auto. eapply same_cover; [|exact F3]. apply cover_incl. inc.
  - eapply wp_vector; [exact Es|exact L|]. intros a s' F1 F2 F3 F4 F5. apply K; auto; [|exists a; auto].
    eapply same_cover; [|exact F3]. apply cover_incl. inc.
Qed.
Lemma wp_push_args fuel vs : forall ls i len s (Q : nat -> state -> Prop) p,
  arg s = p ++ vs -> i = length p -> Forall2 (lst (hp s)) vs ls -> (forall l, In l ls -> length l < fuel) ->
  Q (len + length (concat ls)) (St (hp s) (rev (concat ls) ++ stk s) (arg s) (last s) (tm s)) ->
  wp (push_args fuel (length vs) i len) s Q.
Proof.
  induction vs as [|v vs IH]; intros ls i len s Q p Ea Ei Hl Hf K; inversion Hl as [|? l ? ls' H1 H2]; subst; cbn [length push_args].
  - apply wp_ret. cbn [concat rev app length] in K. rewrite Nat.add_0_r in K. destruct s; exact K.
  - apply wp_bind. apply (wp_argv F _ _ v); [rewrite Ea; apply nth_error_mid|].
    apply wp_bind. eapply (wp_push_all F); [exact H1|exact Logic.I|apply Hf; left; reflexivity|].
    eapply (IH ls' (S (length p)) _ _ _ (p ++ [v])); cbn [arg hp stk last tm].
    + rewrite <- app_assoc. exact Ea.
    + rewrite app_length. cbn [length]. lia.
    + exact H2.
    + intros l' Hl'. apply Hf. right. exact Hl'.
    + cbn [concat] in K. rewrite app_length, rev_app_distr, <- app_assoc, Nat.add_assoc in K. exact K.
Qed.
Lemma cover_concat h vs ls ws : Forall2 (lst h) vs ls -> cover h vs ws -> cover h (concat ls) ws.
Proof.
  induction 1 as [|v l vs ls H1 _ IH]; intros C; [apply cover_nil|]. cbn [concat]. apply cover_app.
  - eapply cover_tail. eapply chain_cover; [eapply cover_in; [exact C|left; reflexivity]|exact H1].
  - apply IH. eapply cover_tail. exact C.
Qed.
Lemma CONCATENATE_ok fuel t s ls : sound glob s -> Forall2 (lst (hp s)) (arg s) ls -> (forall l, In l ls -> length l < fuel) ->
  wp (CONCATENATE env glob fuel (length (arg s)) t) s (leaves s (fun h v => holds t h v (concat ls))).
Proof.
  intros L Hl Hf. unfold CONCATENATE. apply wp_bind.
  eapply (wp_push_args fuel (arg s) ls 0 0 s _ []); [reflexivity|reflexivity|exact Hl|exact Hf|].
  cbn [Nat.add]. rewrite <- rev_length. eapply wp_makesequence; [reflexivity| |].
  - apply (live_pushed glob s); [exact L|]. apply cover_rev. eapply cover_concat; [exact Hl|]. apply cover_incl. apply arg_roots.
  - cbn [hp stk arg last]. intros v s' F1 F2 F3 F4 F5. rewrite rev_involutive in F5. repeat split; auto.
Qed.

(** ** subst *)
Lemma rep_fun h v t : rep h v t -> forall t', rep h v t' -> t = t'.
Proof.
  induction 1 as [|n|a x d tx td E H1 IH1 H2 IH2]; intros t' H; inversion H; subst; try reflexivity.
  rewrite E in H3. injection H3 as <- <-. f_equal; auto.
Qed.
Lemma tree_eqb_refl t : tree_eqb t t = true.
Proof. induction t; cbn [tree_eqb]; [reflexivity|apply Nat.eqb_refl|rewrite IHt1, IHt2; reflexivity]. Qed.
Lemma wp_equal fuel : forall s x y X Y (Q : bool -> state -> Prop),
  rep (hp s) x X -> rep (hp s) y Y -> depth Y < fuel -> Q (tree_eqb X Y) s -> wp (equal fuel x y) s Q.
Proof.
  induction fuel as [|f IH]; intros s x y X Y Q Hx Hy Hf K; [lia|].
  inversion Hx as [|n|a x1 x2 X1 X2 Ea Hx1 Hx2]; inversion Hy as [|m|b y1 y2 Y1 Y2 Eb Hy1 Hy2]; subst;
    cbn [equal]; try (apply wp_ret; exact K).
  destruct (Nat.eqb_spec a b) as [->|N].
  - rewrite (rep_fun _ _ _ Hx _ Hy), tree_eqb_refl in K. apply wp_ret. exact K.
  - apply wp_bind. eapply (wp_look_cons F); [exact Ea|]. apply wp_bind. eapply (wp_look_cons F); [exact Eb|].
    cbn [depth] in Hf. apply wp_bind. eapply IH; [exact Hx1|exact Hy1|lia|]. cbn [tree_eqb] in K.
    destruct (tree_eqb X1 Y1); [|apply wp_ret; exact K]. eapply IH; [exact Hx2|exact Hy2|lia|exact K].
Qed.

Lemma wp_subst fuel : forall s x y z X Y Z (Q : val -> state -> Prop),
  live (hp s) (roots s) -> cover (hp s) [x; y; z] (stk s ++ arg s ++ glob) ->
  rep (hp s) x X -> rep (hp s) y Y -> rep (hp s) z Z -> depth Z < fuel ->
  (forall r s', stk s' = stk s -> arg s' = arg s -> same (hp s) (hp s') (stk s ++ arg s ++ glob) ->
     live (hp s') (r :: roots s') -> rep (hp s') r (tsubst X Y Z) -> Q r s') ->
  wp (subst env glob fuel x y z) s Q.
Proof.
  induction fuel as [|f IH]; intros s x y z X Y Z Q L C Hx Hy Hz Hf K; [lia|].
  assert (forall v, In v [x; y; z] -> live (hp s) (v :: roots s)) as Lv.
  { intros v Hv. eapply live_cover; [|exact L]. apply cover_cons; [|apply cover_incl; apply incl_refl].
    eapply cover_weaken; [eapply cover_in; [exact C|exact Hv]|]. unfold RootModel.roots. inc. }
  cbn [subst]. apply wp_bind. eapply wp_equal; [exact Hy|exact Hz|exact Hf|].
  destruct (tree_eqb Y Z) eqn:E.
  { apply wp_ret. apply K; auto using same_refl; [apply Lv; left; reflexivity|]. destruct Z; cbn [tsubst]; rewrite E; exact Hx. }
  apply wp_bind. inversion Hz as [|m|b z1 z2 Z1 Z2 Eb Hz1 Hz2]; subst.
  1,2: apply (wp_look_end F); [exact Logic.I|]; apply wp_ret; apply K; auto using same_refl;
    [apply Lv; cbn [In]; auto|cbn [tsubst]; rewrite E; exact Hz].
  eapply (wp_look_cons F); [exact Eb|]. cbn [depth] in Hf.
  assert (forall v, In v [z1; z2] -> cover (hp s) [v] (stk s ++ arg s ++ glob)) as Cz.
  { intros v Hv c [->|[]]. eapply reach_field; [apply C; right; right; left; reflexivity|exact Eb|exact Hv]. }
  assert (cover (hp s) [x; y] (stk s ++ arg s ++ glob)) as Cxy by (intros c Hc; apply C; cbn [In] in *; tauto).
  apply wp_bind. eapply (IH s x y z1 X Y Z1); auto; [|lia|].
  { intros c [Hc|[Hc|[Hc|[]]]]; [apply Cxy; left; exact Hc|apply Cxy; right; left; exact Hc|apply (Cz z1); [left; reflexivity|left; exact Hc]]. }
  intros t s1 E1 E2 S1 L1 R1. apply wp_bind. unfold RootProofs.wp at 1, push. apply wp_bind.
  assert (cover (hp s1) [x; y; z2] (stk s ++ arg s ++ glob)) as C1.
  { eapply same_coverage; [exact S1|]. intros c [Hc|[Hc|[Hc|[]]]]; [apply Cxy; left; exact Hc|apply Cxy; right; left; exact Hc|apply (Cz z2); [right; left; reflexivity|left; exact Hc]]. }
  eapply (IH _ x y z2 X Y Z2); cbn [hp stk arg last tm].
  - eapply live_incl; [|exact L1]. unfold RootModel.roots. cbn [stk arg last]. inc.
  - eapply cover_weaken; [exact C1|]. rewrite E1, E2. inc.
  - eapply rep_same; [exact S1|eapply cover_in; [exact C|left; reflexivity]|exact Hx].
  - eapply rep_same; [exact S1|eapply cover_in; [exact C|right; left; reflexivity]|exact Hy].
  - eapply rep_same; [exact S1|apply Cz; right; left; reflexivity|exact Hz2].
  - lia.
  - intros u s2 F1 F2 S2 L2 R2. apply wp_bind. unfold RootProofs.wp at 1, pop. rewrite F1.
    assert (rep (hp s2) t (tsubst X Y Z1)) as R1' by (eapply rep_same; [exact S2|apply cover_incl; inc|exact R1]).
    apply (wp_cons env glob F Henv Hoom); cbn [hp].
    { eapply live_incl; [|exact L2]. unfold RootModel.roots. cbn [stk arg last]. rewrite F1. cbn [app]. inc. }
    intros c s3 G1 G2 G3 S3 Ec L3. cbn [stk arg last hp] in *. apply K.
    + congruence.
    + congruence.
    + eapply same_trans; [exact S1| |apply cover_incl; apply incl_refl].
      eapply same_trans; [eapply same_cover; [|exact S2]|eapply same_cover; [|exact S3]|apply cover_incl; apply incl_refl].
      * apply cover_incl. rewrite E1, E2. cbn [app]. inc.
      * apply cover_incl. unfold RootModel.roots. cbn [stk arg last]. rewrite F2, E1, E2. inc.
    + eapply live_incl; [|exact L3]. inc.
    + cbn [tsubst]. rewrite E. econstructor; [exact Ec| |].
      * eapply rep_same; [exact S3|apply cover_incl; inc|exact R1'].
      * eapply rep_same; [exact S3|apply cover_incl; inc|exact R2].
Qed.
Lemma SUBST_ok fuel s x y z X Y Z : sound glob s -> arg s = [x; y; z] ->
  rep (hp s) x X -> rep (hp s) y Y -> rep (hp s) z Z -> depth Z < fuel ->
  wp (SUBST env glob fuel) s (leaves s (fun h v => rep h v (tsubst X Y Z))).
Proof.
  intros L Ea Hx Hy Hz Hf. unfold SUBST. do 3 (apply wp_bind; eapply (wp_argv F); [rewrite Ea; reflexivity|]).
  eapply wp_subst; [exact L| |exact Hx|exact Hy|exact Hz|exact Hf|].
  - apply cover_incl. rewrite Ea. inc.
  - intros r s' F1 F2 F3 F4 F5. repeat split; auto.
Qed.
End Proofs2.
