(** Whole lambda lists. *)
From Verif Require Import KeyModel KeySpec KeyProofs.

Section Whole.
  Context {F St : Type}.
  Variable ev : F -> (nat -> option val) -> St -> option (val * St).
  Variable kwof : nat -> nat.
  Variable constant : nat -> bool.
  Variable outer : nat -> option val.
  Hypothesis ev_ext : forall f r r' s, (forall x, r x = r' x) -> ev f r s = ev f r' s.
  Variable L : lambda F.

  Notation ks := (opt_list (keys L)).
  Notation run := (run ev).
  Notation agree := (agree outer).
  Notation fresh := (fresh constant).
  Notation outcome := (@outcome St outer).

  Definition rest_refusal (more : list val) : option err :=
    match keys L with
    | Some _ => first_bad kwof L (aokeys L) more
    | None => match rst L, aux L, more with None, [], _ :: _ => Some E_MISMATCHARG | _, _, _ => None end
    end.
  Definition key_part (more : list val) : list (nat * source F) :=
    filter (@given F) (map (key_source kwof more) ks) ++
    filter (fun p => negb (given p)) (map (key_source kwof more) ks) ++ aux_sources L.
  Definition rest_part (more : list val) : list (nat * source F) :=
    match rst L with Some x => [(x, Given (vlist more))] | None => [] end.
  Definition rest_form : list (@item F) := match rst L with Some x => [ISym REST; ISym x] | None => [] end.
  Definition ends (R : @result St) (r : nat -> option val) (s : St) (more : list val) (l : list (nat * source F)) : Prop :=
    match rest_refusal more with Some er => R = Err er | None => outcome R (run l r s) end.

  Lemma keys_form : keys L <> None -> write_keys L ++ write_aux L = ISym KEY :: ks ++ tail (aokeys L) (aux L).
  Proof.
    intros H. unfold write_keys, write_aux, tail. destruct (keys L) as [l|]; [|congruence]. cbn [opt_list app].
    rewrite <- !app_assoc. destruct (aux L); reflexivity.
  Qed.

  Hypothesis NK : NoDup (map (ikey kwof) ks).
  Hypothesis Len : length ks < KEYWORDPARAMETERLIMIT.
  Hypothesis So : Forall simple (opt L).
  Hypothesis Sa : Forall simple (aux L).

  Lemma fresh_app_r a b e : fresh (a ++ b) e -> fresh b e.
  Proof.
    intros (N & C & D). split; [exact (proj1 (proj2 (NoDup_parts _ _ N)))|]. split; intros x Hx; [apply C|apply D]; apply in_or_app; right; exact Hx.
  Qed.

  Definition last_vars : list nat := map ivar ks ++ map ivar (aux L).

  (** &rest *)
  Lemma bindrest_run x more e r s : rst L = Some x -> fresh (x :: last_vars) e -> agree e r ->
    ends (bindrest ev kwof constant outer (ISym x :: write_keys L ++ write_aux L) more e s) r s more (rest_part more ++ key_part more).
  Proof.
    intros Hr Fr A. destruct (fresh_head _ _ _ _ Fr) as (G & C & N). unfold ends, rest_part, rest_refusal. rewrite Hr.
    cbn [bindrest app KeySpec.run]. rewrite (vbind_ok constant x (vlist more) e C N).
    pose proof (fresh_cons constant x _ e (vlist more) Fr) as Fr'. pose proof (agree_cons outer x (vlist more) e r A) as A'.
    destruct (keys L) as [l|] eqn:K in |- *.
    - rewrite (keys_form ltac:(congruence)). cbn [Nat.eqb KEY].
      replace (KEY =? KEY) with true by reflexivity.
      pose proof (bindkey_run ev kwof constant outer ev_ext L more _ _ s NK Len Fr' Sa A') as B.
      unfold key_part. exact B.
    - unfold write_keys, write_aux. rewrite K. cbn [app].
      assert (Kp : key_part more = aux_sources L) by (unfold key_part; rewrite K; reflexivity). rewrite Kp.
      unfold last_vars in Fr'. rewrite K in Fr'. cbn [opt_list map app] in Fr'.
      pose proof (bindaux_run ev constant outer ev_ext (aux L) _ _ s Sa Fr' A') as B. unfold aux_sources.
      destruct (aux L) as [|a l]; exact B.
  Qed.

  (** what follows the optional parameters, met in the &optional loop or in the loop of the required ones *)
  Lemma opt_end_run more e r s : fresh (opt_one (rst L) ++ last_vars) e -> agree e r ->
    ends (bindopt ev kwof constant outer (rest_form ++ write_keys L ++ write_aux L) more e s) r s more (rest_part more ++ key_part more) /\
    ends (bindreq ev kwof constant outer (rest_form ++ write_keys L ++ write_aux L) more e s) r s more (rest_part more ++ key_part more).
  Proof.
    intros Fr A. unfold rest_form. destruct (rst L) as [x|] eqn:R.
    - pose proof (bindrest_run x more e r s R Fr A) as B. split; exact B.
    - cbn [opt_one app] in Fr |- *. unfold rest_part. rewrite R. cbn [app]. destruct (keys L) as [l|] eqn:K in |- *.
      + rewrite (keys_form ltac:(congruence)).
        pose proof (bindkey_run ev kwof constant outer ev_ext L more _ _ s NK Len Fr Sa A) as B.
        unfold ends, rest_refusal, key_part. rewrite K in B |- *. split; exact B.
      + assert (Kp : key_part more = aux_sources L) by (unfold key_part; rewrite K; reflexivity). rewrite Kp.
        unfold last_vars in Fr. rewrite K in Fr. cbn [opt_list map app] in Fr.
        pose proof (bindaux_run ev constant outer ev_ext (aux L) _ _ s Sa Fr A) as B.
        unfold ends, rest_refusal, aux_sources, write_keys, write_aux. rewrite K, R.
        destruct (aux L) as [|a l].
        * cbn [app bindopt bindreq]. destruct more; split; try reflexivity; exact B.
        * split; exact B.
  Qed.

  Lemma skipn_nil {A} n : skipn n (@nil A) = [].
  Proof. destruct n; reflexivity. Qed.
  Lemma opt_run os : forall args e r s, Forall simple os -> fresh (map ivar os ++ opt_one (rst L) ++ last_vars) e -> agree e r ->
    ends (bindopt ev kwof constant outer (os ++ rest_form ++ write_keys L ++ write_aux L) args e s) r s (skipn (length os) args)
      (opt_sources os args ++ rest_part (skipn (length os) args) ++ key_part (skipn (length os) args)).
  Proof.
    induction os as [|p os IH]; intros args e r s Sp Fr A.
    - cbn [app length skipn opt_sources]. exact (proj1 (opt_end_run args e r s Fr A)).
    - inversion Sp as [|? ? Sp1 Sp2]; subst. cbn [map app] in Fr. destruct (fresh_head _ _ _ _ Fr) as (G & C & N).
      assert (X1 : (ivar p =? REST) = false) by (apply Nat.eqb_neq; unfold REST; lia).
      assert (X2 : (ivar p =? KEY) = false) by (apply Nat.eqb_neq; unfold KEY; lia).
      assert (X3 : (ivar p =? AUX) = false) by (apply Nat.eqb_neq; unfold AUX; lia).
      assert (St1 : bindopt ev kwof constant outer ((p :: os) ++ rest_form ++ write_keys L ++ write_aux L) args e s =
        match args with
        | v :: args => match vbind constant (ivar p) v e with
                       | inl e => bindopt ev kwof constant outer (os ++ rest_form ++ write_keys L ++ write_aux L) args e s
                       | inr er => Err er end
        | [] => match init_value ev outer (iinit p) e s with
                | Some (v, s) => match vbind constant (ivar p) v e with
                                 | inl e => bindopt ev kwof constant outer (os ++ rest_form ++ write_keys L ++ write_aux L) [] e s
                                 | inr er => Err er end
                | None => Err E_EVAL
                end
        end).
      { destruct p as [x|x i|k x i]; [| |destruct Sp1]; cbn [app bindopt ivar iinit] in *.
        - rewrite X1, X2, X3. reflexivity.
        - reflexivity. }
      rewrite St1. destruct args as [|v args]; cbn [length skipn opt_sources].
      + rewrite <- app_comm_cons. unfold ends. rewrite (init_value_run ev outer ev_ext (iinit p) e r s _ _ A).
        destruct (init_value ev outer (iinit p) e s) as [[v s']|].
        * rewrite (vbind_ok constant _ v e C N).
          specialize (IH [] ((ivar p, v) :: e) (upd r (ivar p) v) s' Sp2 (fresh_cons _ _ _ _ _ Fr) (agree_cons _ _ _ _ _ A)).
          unfold ends in IH. rewrite skipn_nil in IH. exact IH.
        * unfold rest_refusal. destruct (keys L); [reflexivity|]. destruct (rst L), (aux L); reflexivity.
      + rewrite (vbind_ok constant _ v e C N).
        exact (IH args ((ivar p, v) :: e) (upd r (ivar p) v) s Sp2 (fresh_cons _ _ _ _ _ Fr) (agree_cons _ _ _ _ _ A)).
  Qed.

  Definition opt_form : list (@item F) := match opt L with [] => [] | o => ISym OPTIONAL :: o end.
  Lemma req_run rs : forall args e r s, fresh (rs ++ map ivar (opt L) ++ opt_one (rst L) ++ last_vars) e -> agree e r ->
    let more := skipn (length rs + length (opt L)) args in
    let R := bindreq ev kwof constant outer (map ISym rs ++ opt_form ++ rest_form ++ write_keys L ++ write_aux L) args e s in
    if length args <? length rs then R = Err E_MISMATCHARG
    else ends R r s more (combine rs (map Given args) ++ opt_sources (opt L) (skipn (length rs) args) ++ rest_part more ++ key_part more).
  Proof.
    induction rs as [|x rs IH]; intros args e r s Fr A; cbv zeta.
    - cbn [map app length skipn combine Nat.add]. replace (length args <? 0) with false by (symmetry; apply Nat.ltb_ge; lia).
      unfold opt_form. destruct (opt L) as [|p os] eqn:O.
      + cbn [app length skipn opt_sources]. exact (proj2 (opt_end_run args e r s Fr A)).
      + pose proof (opt_run (p :: os) args e r s So Fr A) as B. exact B.
    - cbn [app] in Fr. destruct (fresh_head _ _ _ _ Fr) as (G & C & N).
      assert (X0 : (x =? OPTIONAL) = false) by (apply Nat.eqb_neq; unfold OPTIONAL; lia).
      assert (X1 : (x =? REST) = false) by (apply Nat.eqb_neq; unfold REST; lia).
      assert (X2 : (x =? KEY) = false) by (apply Nat.eqb_neq; unfold KEY; lia).
      assert (X3 : (x =? AUX) = false) by (apply Nat.eqb_neq; unfold AUX; lia).
      cbn [map app bindreq]. rewrite X0, X1, X2, X3.
      destruct args as [|v args]; [reflexivity|].
      rewrite (vbind_ok constant x v e C N).
      specialize (IH args ((x, v) :: e) (upd r x v) s (fresh_cons _ _ _ _ _ Fr) (agree_cons _ _ _ _ _ A)). cbv zeta in IH.
      change (length (v :: args) <? length (x :: rs)) with (length args <? length rs). exact IH.
  Qed.
End Whole.

Section Coded.
  Context {F St : Type}.
  Variable ev : F -> (nat -> option val) -> St -> option (val * St).
  Variable kwof : nat -> nat.
  Variable constant : nat -> bool.
  Variable outer : nat -> option val.
  Hypothesis ev_ext : forall f r r' s, (forall x, r x = r' x) -> ev f r s = ev f r' s.

  Theorem coded_ok (L : lambda F) args (s : St) : well_formed kwof constant L ->
    match refusal_coded kwof L args with
    | Some er => funlambda ev kwof constant outer (write L) args s = Err er
    | None => outcome outer (funlambda ev kwof constant outer (write L) args s) (run ev (sources_coded kwof L args) outer s)
    end.
  Proof.
    intros (N & V & So & Sa & NK & Len).
    assert (Fr : fresh constant (req L ++ map ivar (opt L) ++ opt_one (rst L) ++ last_vars L) []).
    { split; [exact N|]. split; [exact V|]. intros x _ []. }
    assert (A : agree outer [] outer) by (intros x; reflexivity).
    pose proof (req_run ev kwof constant outer ev_ext L NK Len So Sa (req L) args [] outer s Fr A) as B. cbv zeta in B.
    unfold funlambda, refusal_coded, sources_coded, before_keys, write. unfold after_opt in *.
    destruct (length args <? length (req L)); [exact B|].
    unfold ends, rest_refusal in B. rewrite <- !app_assoc.
    destruct (keys L) as [l|] eqn:K; unfold key_part, rest_part in B; try rewrite K in B; exact B.
  Qed.

  (** Looking at the sources from left to right gives the same when no default looks ahead. *)
  Lemma left_to_right more l (a : list (nat * source F)) : forall r r' s, NoDup (map ivar l) -> no_look_ahead ev l ->
    (forall x, ~ In x (map fst (filter (@given F) (map (key_source kwof more) l))) -> r' x = r x) ->
    (forall x v, In (x, Given v) (map (key_source kwof more) l) -> r' x = Some v) ->
    same (run ev (map (key_source kwof more) l ++ a) r s)
         (run ev (filter (fun p => negb (given p)) (map (key_source kwof more) l) ++ a) r' s).
  Proof.
    induction l as [|p l IH]; intros r r' s N LA A B.
    - cbn [map app filter]. apply run_ext; [exact ev_ext|]. intros x. symmetry. apply A. intros [].
    - cbn [map] in N. apply NoDup_cons_iff in N. destruct N as [N1 N2]. destruct LA as [La LA].
      cbn [map filter app] in *.
      destruct (first_value (ikey kwof p) more) as [v|] eqn:Fv.
      + assert (Hk : key_source kwof more p = (ivar p, Given v)) by (unfold key_source; rewrite Fv; reflexivity).
        rewrite Hk in *. cbn [given snd negb app KeySpec.run] in *. apply IH; [exact N2|exact LA| |].
        * intros x Hx. unfold upd. destruct (Nat.eqb_spec x (ivar p)) as [E|E].
          -- subst x. apply B. left. reflexivity.
          -- apply A. cbn [map fst In]. intros [X|X]; [congruence|contradiction].
        * intros x w H. apply B. right. exact H.
      + assert (Hk : key_source kwof more p = (ivar p, Default (iinit p))) by (unfold key_source; rewrite Fv; reflexivity).
        rewrite Hk in *. cbn [given snd negb app] in *.
        assert (Xp : ~ In (ivar p) (map fst (filter (@given F) (map (key_source kwof more) l)))).
        { intros H. apply N1. exact (filter_given_map_fst kwof more l _ H). }
        assert (Step : forall v s', same (run ev (map (key_source kwof more) l ++ a) (upd r (ivar p) v) s')
           (run ev (filter (fun p => negb (given p)) (map (key_source kwof more) l) ++ a) (upd r' (ivar p) v) s')).
        { intros v s'. apply IH; [exact N2|exact LA| |].
          - intros x Hx. unfold upd. destruct (x =? ivar p); [reflexivity|]. apply A. exact Hx.
          - intros x w H. unfold upd. destruct (Nat.eqb_spec x (ivar p)) as [E|E].
            + exfalso. subst x. apply N1. apply in_map_iff in H. destruct H as (q & E & H). apply (f_equal fst) in E. cbn in E.
              rewrite <- E. apply in_map. exact H.
            + apply B. right. exact H. }
        destruct (iinit p) as [f|]; cbn [KeySpec.run]; [|apply Step].
        rewrite (La r r' s); [destruct (ev f r' s) as [[v s']|]; [apply Step|exact Logic.I]|].
        intros x Hx. symmetry. apply A. intros H. apply Hx. exact (filter_given_map_fst kwof more l _ H).
  Qed.
  Lemma sources_same (L : lambda F) args (s : St) : NoDup (map ivar (opt_list (keys L))) -> no_look_ahead ev (opt_list (keys L)) ->
    same (run ev (sources kwof L args) outer s) (run ev (sources_coded kwof L args) outer s).
  Proof.
    intros N LA. unfold sources, sources_coded. rewrite !run_app.
    destruct (run ev (before_keys L args) outer s) as [[r s1]|]; [|exact Logic.I].
    set (more := after_opt L args). set (ks := opt_list (keys L)) in *.
    rewrite (run_app ev (filter (@given F) _)).
    assert (Ng : NoDup (map fst (filter (@given F) (map (key_source kwof more) ks)))).
    { apply NoDup_map_filter. rewrite map_map. cbn [key_source fst]. exact N. }
    destruct (run_givens ev (filter (@given F) (map (key_source kwof more) ks)) r s1 (forallb_filter _ _) Ng) as (r1 & R1 & B1 & B2).
    rewrite R1. apply left_to_right; [exact N|exact LA|exact B2|].
    intros x v H. apply B1. apply filter_In. split; [exact H|reflexivity].
  Qed.

End Coded.

Section Refusals.
  Context {F : Type}.
  Variable kwof : nat -> nat.
  (** The refusals, when no :allow-other-keys is among the arguments. *)
  Lemma first_bad_plain (L : lambda F) allow args : ~ In K_ALLOW (keywords args) ->
    (first_bad kwof L allow args = None <->
     paired args = true /\ (allow = true \/ forall k, In k (keywords args) -> known kwof L k = true)).
  Proof.
    intros NA. induction args as [|a|a v args IH] using pair_ind.
    - cbn. split; [intros _; split; [reflexivity|right; intros k []]|reflexivity].
    - split; [destruct a; discriminate|]. destruct a; intros [X _]; discriminate.
    - destruct a as [|k|z|a1 a2]; try (split; [discriminate|intros [X _]; discriminate]).
      cbn [keywords In first_bad paired] in *. destruct (Nat.eqb_spec k K_ALLOW) as [E|E]; [tauto|].
      specialize (IH ltac:(tauto)). destruct allow.
      + rewrite orb_true_r, IH. split; intros [X _]; split; auto.
      + rewrite orb_false_r. destruct (known kwof L k) eqn:Kn.
        * rewrite IH. split.
          -- intros [X [Y|Y]]; [discriminate|]. split; [exact X|]. right. intros j [->|Hj]; auto.
          -- intros [X [Y|Y]]; [discriminate|]. split; [exact X|]. right. intros j Hj. auto.
        * split; [discriminate|]. intros [_ [Y|Y]]; [discriminate|]. rewrite (Y k (or_introl eq_refl)) in Kn. discriminate.
  Qed.
  Lemma first_value_keywords k args : ~ In k (keywords args) -> paired args = true -> first_value k args = None.
  Proof.
    induction args as [|a|a v args IH] using pair_ind; [reflexivity|destruct a; reflexivity|].
    destruct a as [|j|z|a1 a2]; try discriminate. cbn [keywords In paired first_value]. intros N P.
    destruct (Nat.eqb_spec j k) as [E|E]; [tauto|]. apply IH; tauto.
  Qed.
  Lemma accepted_iff (L : lambda F) args : ~ In K_ALLOW (keywords (after_opt L args)) ->
    (aux L = [] \/ keys L <> None \/ rst L <> None \/ length args <= length (req L) + length (opt L)) ->
    (refusal_coded kwof L args = None <-> accepted kwof L args).
  Proof.
    intros NA NX. unfold refusal_coded, accepted.
    destruct (Nat.ltb_spec (length args) (length (req L))) as [Lt|Ge].
    - split; [discriminate|]. intros [X _]. lia.
    - destruct (keys L) as [l|] eqn:K.
      + rewrite (first_bad_plain L (aokeys L) _ NA). unfold allowed. split.
        * intros [P H]. split; [exact Ge|]. split; [exact P|]. destruct H as [H|H]; [left; rewrite H; reflexivity|right; auto].
        * intros [_ [P H]]. split; [exact P|]. rewrite (first_value_keywords _ _ NA P), orb_false_r in H.
          destruct H as [H|H]; [left; exact H|]. right. intros k Hk. destruct (H k Hk) as [X|X]; [exact X|]. subst k. contradiction.
      + assert (Ln : length (after_opt L args) = length args - (length (req L) + length (opt L))) by apply skipn_length.
        destruct (rst L) as [x|]; [split; [intros _; split; [exact Ge|left; discriminate]|reflexivity]|].
        destruct (after_opt L args) as [|a m]; cbn [length] in Ln.
        * destruct (aux L); (split; [intros _; split; [exact Ge|right; lia]|reflexivity]).
        * destruct (aux L) as [|b c].
          -- split; [discriminate|]. intros [_ [X|X]]; [congruence|lia].
          -- destruct NX as [X|[X|[X|X]]]; try congruence. lia.
  Qed.
  (** the error says which keyword *)
  Lemma first_bad_names (L : lambda F) allow args k : first_bad kwof L allow args = Some (E_NOKEYPARAM k) ->
    In k (keywords args) /\ known kwof L k = false.
  Proof.
    revert allow. induction args as [|a|a v args IH] using pair_ind; intros allow; [discriminate|destruct a; discriminate|].
    destruct a as [|j|z|a1 a2]; try discriminate. cbn [keywords first_bad In].
    destruct (known kwof L j || (if j =? K_ALLOW then negb (is_nil v) else allow)) eqn:E.
    - intros H. destruct (IH _ H) as [X Y]. split; [right; exact X|exact Y].
    - intros H. inversion H; subst j. split; [left; reflexivity|]. apply orb_false_iff in E. exact (proj1 E).
  Qed.
End Refusals.
