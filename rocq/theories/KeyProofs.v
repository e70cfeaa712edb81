(** The interpreter's binding of parameters does what KeySpec says. *)
From Verif Require Import KeyModel KeySpec.

Lemma NoDup_parts (a b : list nat) : NoDup (a ++ b) -> NoDup a /\ NoDup b /\ forall x, In x a -> ~ In x b.
Proof.
  induction a as [|x a IH]; cbn [app]; intros N.
  - split; [constructor|]. split; [exact N|intros x []].
  - apply NoDup_cons_iff in N. destruct N as [N1 N2]. destruct (IH N2) as (A & B & C). split; [|split; [exact B|]].
    + apply NoDup_cons; [|exact A]. intros H. apply N1. apply in_or_app. left. exact H.
    + intros y [E|Hy]; [|exact (C y Hy)]. subst y. intros H. apply N1. apply in_or_app. right. exact H.
Qed.

Section Proofs.
  Context {F St : Type}.
  Variable ev : F -> (nat -> option val) -> St -> option (val * St).
  Variable kwof : nat -> nat.
  Variable constant : nat -> bool.
  Variable outer : nat -> option val.
  Hypothesis ev_ext : forall f r r' s, (forall x, r x = r' x) -> ev f r s = ev f r' s.

  Notation lookup := (lookup outer).
  Notation vbind := (vbind constant).
  Notation ikey := (@ikey F kwof).
  Notation run := (run ev).
  Notation item := (@item F).

  Definition dom (e : env) : list nat := map fst e.
  Definition agree (e : env) (r : nat -> option val) : Prop := forall x, lookup e x = r x.
  Definition outcome (res : @result St) (o : option ((nat -> option val) * St)) : Prop :=
    match o with
    | Some (r, s) => exists e, res = Bound e s /\ agree e r
    | None => res = Err E_EVAL
    end.

  Lemma lookup_cons x v e y : lookup ((x, v) :: e) y = if y =? x then Some v else lookup e y.
  Proof. unfold KeyModel.lookup. cbn [find fst snd]. rewrite (Nat.eqb_sym x y). destruct (y =? x); reflexivity. Qed.
  Lemma agree_cons x v e r : agree e r -> agree ((x, v) :: e) (upd r x v).
  Proof. intros A y. rewrite lookup_cons. unfold upd. destruct (y =? x); [reflexivity|apply A]. Qed.
  Lemma vbind_ok x v e : constant x = false -> ~ In x (dom e) -> vbind x v e = inl ((x, v) :: e).
  Proof.
    intros C N. unfold KeyModel.vbind. rewrite C.
    destruct (existsb (fun p => fst p =? x) e) eqn:E; [|reflexivity].
    exfalso. apply N. apply existsb_exists in E. destruct E as (p & I1 & E). apply Nat.eqb_eq in E. subst x.
    apply in_map. exact I1.
  Qed.
  Lemma init_value_run i e r s x l : agree e r ->
    run ((x, Default i) :: l) r s =
    match init_value ev outer i e s with Some (v, s) => run l (upd r x v) s | None => None end.
  Proof.
    intros A. destruct i as [f|]; cbn [KeySpec.run init_value]; [|reflexivity].
    rewrite (ev_ext f r (lookup e) s); [reflexivity|]. intros y. symmetry. apply A.
  Qed.
  Lemma run_app l1 : forall l2 r s,
    run (l1 ++ l2) r s = match run l1 r s with Some (r, s) => run l2 r s | None => None end.
  Proof.
    induction l1 as [|[x [v|[f|]]] l1 IH]; intros l2 r s; cbn [app KeySpec.run]; auto.
    destruct (ev f r s) as [[v s']|]; auto.
  Qed.
  Definition same (a b : option ((nat -> option val) * St)) : Prop :=
    match a, b with
    | Some (r, s), Some (r', s') => (forall x, r x = r' x) /\ s = s'
    | None, None => True
    | _, _ => False
    end.
  Lemma run_ext l : forall r r' s, (forall x, r x = r' x) -> same (run l r s) (run l r' s).
  Proof.
    induction l as [|[x [v|[f|]]] l IH]; intros r r' s E; cbn [KeySpec.run].
    - split; [exact E|reflexivity].
    - apply IH. intros y. unfold upd. rewrite E. reflexivity.
    - rewrite (ev_ext f r r' s E). destruct (ev f r' s) as [[v s']|]; [|exact Logic.I].
      apply IH. intros y. unfold upd. rewrite E. reflexivity.
    - apply IH. intros y. unfold upd. rewrite E. reflexivity.
  Qed.
  Lemma same_trans a b c : same a b -> same b c -> same a c.
  Proof.
    destruct a as [[ra sa]|], b as [[rb sb]|], c as [[rc sc]|]; cbn; try tauto.
    intros [A ->] [B ->]. split; [|reflexivity]. intros x. rewrite A. apply B.
  Qed.
  Lemma same_sym a b : same a b -> same b a.
  Proof. destruct a as [[ra sa]|], b as [[rb sb]|]; cbn; try tauto. intros [A ->]. split; auto. Qed.
  Lemma same_refl a : same a a.
  Proof. destruct a as [[r s]|]; cbn; auto. Qed.
  Lemma outcome_same res a b : same a b -> outcome res a -> outcome res b.
  Proof.
    destruct a as [[ra sa]|], b as [[rb sb]|]; cbn; try tauto.
    intros [A ->] (e & H & G). exists e. split; [exact H|]. intros x. rewrite <- A. apply G.
  Qed.

  Definition fresh (xs : list nat) (e : env) : Prop :=
    NoDup xs /\ (forall x, In x xs -> 4 < x /\ constant x = false) /\ (forall x, In x xs -> ~ In x (dom e)).
  Lemma fresh_cons x xs e v : fresh (x :: xs) e -> fresh xs ((x, v) :: e).
  Proof.
    intros (N & C & D). apply NoDup_cons_iff in N. destruct N as [N1 N2]. split; [exact N2|]. split.
    - intros y Hy. apply C. right. exact Hy.
    - intros y Hy [E|Hd]; [cbn in E; subst y; contradiction|]. exact (D y (or_intror Hy) Hd).
  Qed.
  Lemma fresh_head x xs e : fresh (x :: xs) e -> 4 < x /\ constant x = false /\ ~ In x (dom e).
  Proof. intros (N & C & D). destruct (C x (or_introl eq_refl)). split; [assumption|]. split; [assumption|]. apply D. left. reflexivity. Qed.

  (** &aux *)
  Lemma bindaux_run ps : forall e r s, Forall simple ps -> fresh (map ivar ps) e -> agree e r ->
    outcome (bindaux ev constant outer ps e s) (run (map (fun p => (ivar p, Default (iinit p))) ps) r s).
  Proof.
    induction ps as [|p ps IH]; intros e r s Sp Fr A.
    - exists e. split; [reflexivity|exact A].
    - inversion Sp as [|? ? Sp1 Sp2]; subst. cbn [map] in *. rewrite (init_value_run _ e r s _ _ A).
      destruct (fresh_head _ _ _ Fr) as (G & C & N).
      destruct p as [x|x i|k x i]; [| |destruct Sp1]; cbn [ivar iinit bindaux] in *.
      + cbn [init_value]. rewrite (vbind_ok x VNil e C N). apply IH; [exact Sp2|apply fresh_cons; exact Fr|apply agree_cons; exact A].
      + destruct (init_value ev outer i e s) as [[v s']|]; [|reflexivity].
        rewrite (vbind_ok x v e C N). apply IH; [exact Sp2|apply fresh_cons; exact Fr|apply agree_cons; exact A].
  Qed.

  (** ** The key table *)
  Definition ent (done : nat -> bool) (p : item) : @entry F :=
    mkEntry (ikey p) (ivar p) (if done (ikey p) then None else Some (iinit p)).
  Definition tail (allow : bool) (ax : list item) : list item :=
    (if allow then [ISym ALLOW] else []) ++ match ax with [] => [] | a => ISym AUX :: a end.
  Lemma parse_tail allow ax n : parse_keys kwof (tail allow ax) n = Table [] allow.
  Proof. destruct allow, ax; reflexivity. Qed.
  Lemma parse_keys_ok ks allow ax : forall n, (forall x, In x (map ivar ks) -> 4 < x) ->
    n + length ks < KEYWORDPARAMETERLIMIT ->
    parse_keys kwof (ks ++ tail allow ax) n = Table (map (ent (fun _ => false)) ks) allow.
  Proof.
    induction ks as [|p ks IH]; intros n G L; [apply parse_tail|].
    cbn [length] in L. assert (Hn : (KEYWORDPARAMETERLIMIT <=? S n) = false) by (apply Nat.leb_gt; lia).
    assert (Gx : 4 < ivar p) by (apply G; left; reflexivity).
    assert (IH' := IH (S n) (fun x Hx => G x (or_intror Hx)) ltac:(lia)).
    destruct p as [x|x i|k x i]; cbn [app parse_keys map ivar] in *; rewrite IH'.
    - replace (x =? ALLOW) with false by (symmetry; apply Nat.eqb_neq; unfold ALLOW; lia).
      replace (x =? AUX) with false by (symmetry; apply Nat.eqb_neq; unfold AUX; lia). rewrite Hn. reflexivity.
    - rewrite Hn. reflexivity.
    - rewrite Hn. reflexivity.
  Qed.
  Lemma after_aux_ok ks allow ax : (forall x, In x (map ivar ks) -> 4 < x) -> after_aux (ks ++ tail allow ax) = ax.
  Proof.
    induction ks as [|p ks IH]; intros G.
    - destruct allow, ax; reflexivity.
    - assert (Gx : 4 < ivar p) by (apply G; left; reflexivity).
      assert (IH' := IH (fun x Hx => G x (or_intror Hx))).
      destruct p as [x|x i|k x i]; cbn [app after_aux ivar] in *; [|exact IH'|exact IH'].
      replace (x =? AUX) with false by (symmetry; apply Nat.eqb_neq; unfold AUX; lia). exact IH'.
  Qed.

  Lemma find_key_none k done ks : find_key k (map (ent done) ks) = None <-> existsb (fun p => ikey p =? k) ks = false.
  Proof.
    induction ks as [|p ks IH]; [split; reflexivity|]. cbn [map find_key ent ekey existsb].
    destruct (ikey p =? k); cbn [orb]; [split; discriminate|].
    rewrite <- IH. destruct (find_key k (map (ent done) ks)); split; intros E; try reflexivity; discriminate.
  Qed.
  Lemma find_key_some k done ks i : find_key k (map (ent done) ks) = Some i ->
    exists p, nth_error ks i = Some p /\ ikey p = k.
  Proof.
    revert i. induction ks as [|p ks IH]; intros i; [discriminate|]. cbn [map find_key ent ekey].
    destruct (Nat.eqb_spec (ikey p) k) as [E|E].
    - intros H. inversion H; subst. exists p. split; reflexivity.
    - destruct (find_key k (map (ent done) ks)) as [j|]; [|discriminate]. intros H. inversion H; subst. exact (IH j eq_refl).
  Qed.
  Lemma mark_supplied_ok ks done : NoDup (map ikey ks) -> forall i p, nth_error ks i = Some p ->
    mark_supplied i (map (ent done) ks) = map (ent (fun k => (k =? ikey p) || done k)) ks.
  Proof.
    induction ks as [|q ks IH]; intros N i p H; [destruct i; discriminate|].
    cbn [map] in N. apply NoDup_cons_iff in N. destruct N as [N1 N2].
    destruct i as [|i]; cbn [nth_error] in H; cbn [map mark_supplied].
    - inversion H; subst q. f_equal.
      + unfold ent. cbn [ekey evar]. rewrite Nat.eqb_refl. reflexivity.
      + apply map_ext_in. intros q Hq. unfold ent.
        destruct (Nat.eqb_spec (ikey q) (ikey p)) as [E|E]; [|reflexivity].
        exfalso. apply N1. rewrite <- E. apply in_map. exact Hq.
    - rewrite (IH N2 i p H). f_equal. unfold ent.
      destruct (Nat.eqb_spec (ikey q) (ikey p)) as [E|E]; [|reflexivity].
      exfalso. apply N1. rewrite E. apply in_map. exact (nth_error_In _ _ H).
  Qed.

  (** The loop over the arguments. *)
  Definition supplied (k : nat) (args : list val) : bool := match first_value k args with Some _ => true | None => false end.
  Variable L : lambda F.
  Notation ks := (opt_list (keys L)).

  Lemma pair_ind (Q : list val -> Prop) : Q [] -> (forall a, Q [a]) -> (forall a b l, Q l -> Q (a :: b :: l)) -> forall l, Q l.
  Proof.
    intros H0 H1 H2. fix IH 1. intros [|a [|b l]]; [exact H0|exact (H1 a)|apply H2; apply IH].
  Qed.

  Lemma take_keys_ok args : NoDup (map ikey ks) -> NoDup (map ivar ks) ->
    (forall x, In x (map ivar ks) -> constant x = false) -> forall done allow e,
    (forall p, In p ks -> done (ikey p) = false -> ~ In (ivar p) (dom e)) ->
    match first_bad kwof L allow args with
    | Some er => take_keys constant args (map (ent done) ks) allow e = TakErr er
    | None => exists e',
        take_keys constant args (map (ent done) ks) allow e = Taken (map (ent (fun k => done k || supplied k args)) ks) e' /\
        (forall p, In p ks -> lookup e' (ivar p) =
           if done (ikey p) then lookup e (ivar p)
           else match first_value (ikey p) args with Some v => Some v | None => lookup e (ivar p) end) /\
        (forall x, ~ In x (map ivar ks) -> lookup e' x = lookup e x) /\
        (forall p, In p ks -> done (ikey p) || supplied (ikey p) args = false -> ~ In (ivar p) (dom e')) /\
        (forall x, In x (dom e') -> In x (dom e) \/ In x (map ivar ks))
    end.
  Proof.
    intros NK NV NC. induction args as [|a|a v args IH] using pair_ind; intros done allow e D.
    - cbn [first_bad take_keys]. exists e. split; [|split; [|split; [|split]]].
      + f_equal. apply map_ext. intros p. unfold ent, supplied. cbn [first_value]. rewrite orb_false_r. reflexivity.
      + intros p Hp. destruct (done (ikey p)); reflexivity.
      + reflexivity.
      + intros p Hp E. apply D; [exact Hp|]. apply orb_false_iff in E. exact (proj1 E).
      + intros x Hx. left. exact Hx.
    - destruct a; reflexivity.
    - destruct a as [|k|z|a1 a2]; try reflexivity. cbn [first_bad take_keys].
      set (allow' := if k =? K_ALLOW then negb (is_nil v) else allow).
      destruct (find_key k (map (ent done) ks)) as [i|] eqn:Fk.
      + destruct (find_key_some _ _ _ _ Fk) as (p & Np & Kp). pose proof (nth_error_In _ _ Np) as Ip.
        assert (Kn : known kwof L k = true).
        { unfold known. apply existsb_exists. exists p. split; [exact Ip|]. apply Nat.eqb_eq. exact Kp. }
        rewrite Kn. cbn [orb]. rewrite (map_nth_error (ent done) i ks Np).
        destruct (done (ikey p)) eqn:Dp.
        * (* already supplied *)
          assert (Ep : ent done p = mkEntry (ikey p) (ivar p) None) by (unfold ent; rewrite Dp; reflexivity). rewrite Ep.
          specialize (IH done allow' e D). destruct (first_bad kwof L allow' args) as [er|]; [exact IH|].
          destruct IH as (e' & T & A1 & A2 & A3 & A4). exists e'. split; [|split; [|split; [|split]]].
          -- rewrite T. f_equal. apply map_ext_in. intros q Hq. unfold ent, supplied. cbn [first_value].
             destruct (Nat.eqb_spec k (ikey q)) as [E|E]; [|reflexivity].
             rewrite <- E, <- Kp, Dp. reflexivity.
          -- intros q Hq. rewrite (A1 q Hq). cbn [first_value].
             destruct (Nat.eqb_spec k (ikey q)) as [E|E]; [|reflexivity]. rewrite <- E, <- Kp, Dp. reflexivity.
          -- exact A2.
          -- intros q Hq E. apply A3; [exact Hq|]. revert E. unfold supplied. cbn [first_value].
             destruct (Nat.eqb_spec k (ikey q)) as [Eq|Eq]; [|auto]. rewrite orb_true_r. discriminate.
          -- exact A4.
        * (* bound now *)
          assert (Ep : ent done p = mkEntry (ikey p) (ivar p) (Some (iinit p))) by (unfold ent; rewrite Dp; reflexivity). rewrite Ep.
          assert (Cp : constant (ivar p) = false) by (apply NC; apply in_map; exact Ip).
          rewrite (vbind_ok (ivar p) v e Cp (D p Ip Dp)). rewrite (mark_supplied_ok ks done NK i p Np).
          assert (Inj : forall q, In q ks -> ivar q = ivar p -> q = p).
          { intros q Hq E. apply In_nth_error in Hq. destruct Hq as (j & Nj).
            assert (Ej : j = i).
            { apply (proj1 (NoDup_nth_error (map ivar ks)) NV).
              - apply nth_error_Some. rewrite (map_nth_error _ _ _ Nj). discriminate.
              - rewrite (map_nth_error _ _ _ Nj), (map_nth_error _ _ _ Np). congruence. }
            subst j. congruence. }
          specialize (IH (fun k0 => (k0 =? ikey p) || done k0) allow' ((ivar p, v) :: e)).
          assert (D' : forall q, In q ks -> (ikey q =? ikey p) || done (ikey q) = false -> ~ In (ivar q) (dom ((ivar p, v) :: e))).
          { intros q Hq E [X|X].
            - cbn in X. symmetry in X. apply (Inj q Hq) in X. subst q. rewrite Nat.eqb_refl in E. discriminate.
            - apply orb_false_iff in E. exact (D q Hq (proj2 E) X). }
          specialize (IH D'). destruct (first_bad kwof L allow' args) as [er|]; [exact IH|].
          destruct IH as (e' & T & A1 & A2 & A3 & A4). exists e'. split; [|split; [|split; [|split]]].
          -- rewrite T. f_equal. apply map_ext. intros q. unfold ent, supplied. cbn [first_value]. rewrite (Nat.eqb_sym k).
             rewrite Kp. destruct (ikey q =? k); cbn [orb]; [rewrite orb_true_r|]; reflexivity.
          -- intros q Hq. rewrite (A1 q Hq). cbn [first_value]. rewrite (Nat.eqb_sym k), Kp.
             destruct (Nat.eqb_spec (ikey q) k) as [E|E]; cbn [orb].
             ++ assert (q = p).
                { apply In_nth_error in Hq. destruct Hq as (j & Nj).
                  assert (Ej : j = i).
                  { apply (proj1 (NoDup_nth_error (map ikey ks)) NK).
                    - apply nth_error_Some. rewrite (map_nth_error _ _ _ Nj). discriminate.
                    - rewrite (map_nth_error _ _ _ Nj), (map_nth_error _ _ _ Np). congruence. }
                  subst j. congruence. }
                subst q. rewrite Dp, lookup_cons, Nat.eqb_refl. reflexivity.
             ++ assert (Nx : (ivar q =? ivar p) = false).
                { apply Nat.eqb_neq. intros X. apply E. rewrite (Inj q Hq X). exact Kp. }
                rewrite lookup_cons, Nx. reflexivity.
          -- intros x Hx. rewrite (A2 x Hx), lookup_cons. destruct (Nat.eqb_spec x (ivar p)) as [E|E]; [|reflexivity].
             exfalso. apply Hx. subst x. apply in_map. exact Ip.
          -- intros q Hq E. apply A3; [exact Hq|]. revert E. unfold supplied. cbn [first_value]. rewrite (Nat.eqb_sym k), Kp.
             destruct (ikey q =? k); cbn [orb]; [rewrite orb_true_r; discriminate|auto].
          -- intros x Hx. destruct (A4 x Hx) as [[X|X]|X]; [|left; exact X|right; exact X].
             right. cbn in X. subst x. apply in_map. exact Ip.
      + assert (Kn : known kwof L k = false) by (apply (find_key_none k done ks); exact Fk).
        rewrite Kn. cbn [orb]. destruct allow' eqn:Ea; [|reflexivity].
        specialize (IH done true e D). destruct (first_bad kwof L true args) as [er|]; [exact IH|].
        assert (Kq : forall q, In q ks -> (k =? ikey q) = false).
        { intros q Hq. apply Nat.eqb_neq. intros E. assert (known kwof L k = true); [|congruence].
          unfold known. apply existsb_exists. exists q. split; [exact Hq|]. apply Nat.eqb_eq. symmetry. exact E. }
        destruct IH as (e' & T & A1 & A2 & A3 & A4). exists e'. split; [|split; [|split; [|split]]].
        * rewrite T. f_equal. apply map_ext_in. intros q Hq. unfold ent, supplied. cbn [first_value]. rewrite (Kq q Hq). reflexivity.
        * intros q Hq. rewrite (A1 q Hq). cbn [first_value]. rewrite (Kq q Hq). reflexivity.
        * exact A2.
        * intros q Hq E. apply A3; [exact Hq|]. revert E. unfold supplied. cbn [first_value]. rewrite (Kq q Hq). auto.
        * exact A4.
  Qed.

  (** the defaults *)
  Definition defaults (done : nat -> bool) (l : list item) : list (nat * source F) :=
    map (fun p => (ivar p, Default (iinit p))) (filter (fun p => negb (done (ikey p))) l).
  Lemma bind_defaults_run done l : forall e r s, NoDup (map ivar l) ->
    (forall p, In p l -> constant (ivar p) = false) ->
    (forall p, In p l -> done (ikey p) = false -> ~ In (ivar p) (dom e)) -> agree e r ->
    match run (defaults done l) r s with
    | Some (r', s') => exists e', bind_defaults ev constant outer (map (ent done) l) e s = Bound e' s' /\ agree e' r' /\
        (forall x, In x (dom e') -> In x (dom e) \/ In x (map ivar l))
    | None => bind_defaults ev constant outer (map (ent done) l) e s = Err E_EVAL
    end.
  Proof.
    unfold defaults. induction l as [|p l IH]; intros e r s N C D A.
    - cbn. exists e. split; [reflexivity|]. split; [exact A|]. auto.
    - cbn [map] in N. apply NoDup_cons_iff in N. destruct N as [N1 N2].
      cbn [map filter bind_defaults ent]. unfold ent at 1. cbn [bind_defaults].
      assert (Cl : forall q, In q l -> constant (ivar q) = false) by (intros q Hq; apply C; right; exact Hq).
      destruct (done (ikey p)) eqn:Dp; cbn [negb].
      + specialize (IH e r s N2 Cl (fun q Hq => D q (or_intror Hq)) A).
        unfold ent in IH at 1. fold ent in IH.
        destruct (run _ r s) as [[r' s']|]; [|exact IH].
        destruct IH as (e' & B & G & H). exists e'. split; [exact B|]. split; [exact G|].
        intros x Hx. cbn [map]. destruct (H x Hx); [left|right; right]; assumption.
      + cbn [map]. rewrite (init_value_run _ e r s _ _ A).
        destruct (init_value ev outer (iinit p) e s) as [[v s']|]; [|reflexivity].
        rewrite (vbind_ok (ivar p) v e (C p (or_introl eq_refl)) (D p (or_introl eq_refl) Dp)).
        assert (D' : forall q, In q l -> done (ikey q) = false -> ~ In (ivar q) (dom ((ivar p, v) :: e))).
        { intros q Hq Eq [X|X]; [cbn in X; apply N1; rewrite X; apply in_map; exact Hq|exact (D q (or_intror Hq) Eq X)]. }
        specialize (IH ((ivar p, v) :: e) (upd r (ivar p) v) s' N2 Cl D' (agree_cons _ _ _ _ A)).
        destruct (run _ _ s') as [[r' s'']|]; [|exact IH].
        destruct IH as (e' & B & G & H). exists e'. split; [exact B|]. split; [exact G|].
        intros x Hx. destruct (H x Hx) as [[X|X]|X]; [|left; exact X|right; right; exact X].
        cbn in X. right. left. exact X.
  Qed.

  (** sources with values only *)
  Lemma run_givens l : forall r s, forallb (@given F) l = true -> NoDup (map fst l) ->
    exists r', run l r s = Some (r', s) /\
      (forall x v, In (x, Given v) l -> r' x = Some v) /\ (forall x, ~ In x (map fst l) -> r' x = r x).
  Proof using ev.
    induction l as [|[x o] l IH]; intros r s G N.
    - exists r. split; [reflexivity|]. split; [intros x v []|reflexivity].
    - cbn [forallb] in G. apply andb_true_iff in G. destruct G as [G1 G2].
      cbn [map fst] in N. apply NoDup_cons_iff in N. destruct N as [N1 N2].
      destruct o as [v|]; [|discriminate]. cbn [KeySpec.run].
      destruct (IH (upd r x v) s G2 N2) as (r' & R & A & B). exists r'. split; [exact R|]. split.
      + intros y w [E|Hy]; [|exact (A y w Hy)]. inversion E; subst. rewrite (B y N1). unfold upd. rewrite Nat.eqb_refl. reflexivity.
      + intros y Hy. cbn [map fst In] in Hy. rewrite B; [|intros X; apply Hy; right; exact X]. unfold upd.
        destruct (Nat.eqb_spec y x) as [E|E]; [|reflexivity]. subst y. exfalso. apply Hy. left. reflexivity.
  Qed.

  Lemma filter_default_map more l :
    filter (fun p => negb (given p)) (map (key_source kwof more) l) = defaults (fun k => supplied k more) l.
  Proof.
    unfold defaults, supplied, key_source. induction l as [|p l IH]; [reflexivity|]. cbn [map filter given snd].
    destruct (first_value (ikey p) more); cbn [negb]; rewrite IH; reflexivity.
  Qed.
  Lemma filter_given_map_fst more l x : In x (map fst (filter (@given F) (map (key_source kwof more) l))) -> In x (map ivar l).
  Proof.
    intros H. apply in_map_iff in H. destruct H as (q & <- & H). apply filter_In in H. destruct H as [H _].
    apply in_map_iff in H. destruct H as (p & <- & H). cbn. apply in_map. exact H.
  Qed.
  Lemma NoDup_map_filter {A} (f : A -> nat) g (l : list A) : NoDup (map f l) -> NoDup (map f (filter g l)).
  Proof.
    induction l as [|a l IH]; [auto|]. cbn [map filter]. intros N. apply NoDup_cons_iff in N. destruct N as [N1 N2].
    destruct (g a); [|auto]. cbn [map]. apply NoDup_cons; [|auto].
    intros H. apply N1. apply in_map_iff in H. destruct H as (b & E & H). rewrite <- E. apply in_map. apply filter_In in H. tauto.
  Qed.
  Lemma forallb_filter {A} (g : A -> bool) l : forallb g (filter g l) = true.
  Proof. apply forallb_forall. intros x H. apply filter_In in H. tauto. Qed.

  (** ** &key to the end of the list *)
  Lemma bindkey_run more e r s : NoDup (map ikey ks) -> length ks < KEYWORDPARAMETERLIMIT ->
    fresh (map ivar ks ++ map ivar (aux L)) e -> Forall simple (aux L) -> agree e r ->
    match first_bad kwof L (aokeys L) more with
    | Some er => bindkey ev kwof constant outer (ks ++ tail (aokeys L) (aux L)) more e s = Err er
    | None => outcome (bindkey ev kwof constant outer (ks ++ tail (aokeys L) (aux L)) more e s)
        (run (filter (@given F) (map (key_source kwof more) ks) ++
              filter (fun p => negb (given p)) (map (key_source kwof more) ks) ++ aux_sources L) r s)
    end.
  Proof.
    intros NK Len (N & C & D) Sa A.
    assert (NV : NoDup (map ivar ks)) by (exact (proj1 (NoDup_parts _ _ N))).
    assert (G4 : forall x, In x (map ivar ks) -> 4 < x) by (intros x Hx; apply C; apply in_or_app; left; exact Hx).
    assert (Cc : forall x, In x (map ivar ks) -> constant x = false) by (intros x Hx; apply C; apply in_or_app; left; exact Hx).
    unfold bindkey, bindkeyparams. rewrite (parse_keys_ok ks (aokeys L) (aux L) 0 G4 Len).
    pose proof (take_keys_ok more NK NV Cc (fun _ => false) (aokeys L) e) as T.
    assert (D0 : forall p, In p ks -> false = false -> ~ In (ivar p) (dom e)).
    { intros p Hp _. apply D. apply in_or_app. left. apply in_map. exact Hp. }
    specialize (T D0). destruct (first_bad kwof L (aokeys L) more) as [er|]; [rewrite T; reflexivity|].
    destruct T as (e1 & T & A1 & A2 & A3 & A4). rewrite T. cbn [orb] in *.
    rewrite run_app.
    assert (Ng : NoDup (map fst (filter (@given F) (map (key_source kwof more) ks)))).
    { apply NoDup_map_filter. rewrite map_map. cbn [key_source fst]. exact NV. }
    destruct (run_givens (filter (@given F) (map (key_source kwof more) ks)) r s (forallb_filter _ _) Ng) as (r1 & R1 & B1 & B2).
    rewrite R1.
    assert (Ag : agree e1 r1).
    { intros x. destruct (in_dec Nat.eq_dec x (map ivar ks)) as [Hx|Hx].
      - apply in_map_iff in Hx. destruct Hx as (p & <- & Hp). rewrite (A1 p Hp).
        destruct (first_value (ikey p) more) as [v|] eqn:Fv.
        + symmetry. apply B1. apply filter_In. split; [|reflexivity].
          apply in_map_iff. exists p. split; [|exact Hp]. unfold key_source. rewrite Fv. reflexivity.
        + rewrite B2; [apply A|]. intros H. apply in_map_iff in H. destruct H as ([x o] & E & H). cbn in E. subst x.
          apply filter_In in H. destruct H as [H Gv]. apply in_map_iff in H. destruct H as (q & Eq & Hq).
          unfold key_source in Eq. inversion Eq as [[E1 E2]].
          assert (q = p).
          { apply In_nth_error in Hq. destruct Hq as (j & Nj). apply In_nth_error in Hp. destruct Hp as (i & Ni).
            assert (j = i); [|congruence].
            apply (proj1 (NoDup_nth_error (map ivar ks)) NV).
            - apply nth_error_Some. rewrite (map_nth_error _ _ _ Nj). discriminate.
            - rewrite (map_nth_error _ _ _ Nj), (map_nth_error _ _ _ Ni). congruence. }
          subst q. rewrite Fv in E2. subst o. discriminate.
      - rewrite (A2 x Hx), B2; [apply A|]. intros H. apply Hx. apply (filter_given_map_fst more). exact H. }
    rewrite run_app, filter_default_map.
    pose proof (bind_defaults_run (fun k => supplied k more) ks e1 r1 s NV) as Bd.
    assert (Cp : forall p, In p ks -> constant (ivar p) = false) by (intros p Hp; apply Cc; apply in_map; exact Hp).
    specialize (Bd Cp A3 Ag). destruct (run _ r1 s) as [[r2 s2]|]; [|rewrite Bd; reflexivity].
    destruct Bd as (e2 & Bd & G2 & H2). rewrite Bd, (after_aux_ok ks (aokeys L) (aux L) G4).
    unfold aux_sources. apply bindaux_run; [exact Sa| |exact G2].
    split; [exact (proj1 (proj2 (NoDup_parts _ _ N)))|]. split.
    + intros x Hx. apply C. apply in_or_app. right. exact Hx.
    + intros x Hx Hd. assert (Nk : ~ In x (map ivar ks)).
      { intros X. exact (proj2 (proj2 (NoDup_parts _ _ N)) x X Hx). }
      destruct (H2 x Hd) as [X|X]; [|contradiction]. destruct (A4 x X) as [Y|Y]; [|contradiction].
      exact (D x (in_or_app _ _ _ (or_intror Hx)) Y).
  Qed.
End Proofs.
