(** The compiled route: parsekeyparams and the defaults after it. *)
From Verif Require Import KeyModel KeySpec KeyProofs KeyProofs2.

Lemma land_bit b i : (0 <= i)%Z -> (Z.land b (2 ^ i) =? 0)%Z = negb (Z.testbit b i).
Proof.
  intros Hi. destruct (Z.testbit b i) eqn:E; cbn [negb].
  - apply Z.eqb_neq. intros H. assert (X : Z.testbit (Z.land b (2 ^ i)) i = Z.testbit 0 i) by (rewrite H; reflexivity).
    rewrite Z.land_spec, Z.testbit_0_l, E, Z.pow2_bits_true in X by lia. discriminate.
  - apply Z.eqb_eq. apply Z.bits_inj_iff'. intros j Hj. rewrite Z.land_spec, Z.testbit_0_l, Z.pow2_bits_eqb by lia.
    destruct (Z.eqb_spec i j) as [X|X]; [subst j; rewrite E; reflexivity|apply andb_false_r].
Qed.
Lemma lor_bit b i j : (0 <= i)%Z -> (0 <= j)%Z -> Z.testbit (Z.lor b (2 ^ i)) j = Z.testbit b j || (i =? j)%Z.
Proof. intros Hi Hj. rewrite Z.lor_spec, Z.pow2_bits_eqb by lia. reflexivity. Qed.
Lemma nth_set_nth l : forall i j v d, i < length l -> nth j (set_nth i v l) d = if j =? i then v else nth j l d.
Proof.
  induction l as [|a l IH]; intros i j v d Hi; [cbn in Hi; lia|]. destruct i as [|i], j as [|j]; cbn [set_nth nth Nat.eqb]; try reflexivity.
  apply IH. cbn [length] in Hi. lia.
Qed.
Lemma length_set_nth l : forall i v, length (set_nth i v l) = length l.
Proof. induction l as [|a l IH]; intros [|i] v; cbn [set_nth length]; auto. Qed.

Section Compiled.
  Context {F St : Type}.
  Variable ev : F -> (nat -> option val) -> St -> option (val * St).
  Variable kwof : nat -> nat.
  Variable outer : nat -> option val.
  Hypothesis ev_ext : forall f r r' s, (forall x, r x = r' x) -> ev f r s = ev f r' s.
  Variable L : lambda F.
  Notation ks := (opt_list (keys L)).
  Notation ikey := (@ikey F kwof).

  Definition holds (done : nat -> option val) (bits : Z) (results : list val) : Prop :=
    length results = length ks /\
    forall i p, nth_error ks i = Some p ->
      Z.testbit bits (Z.of_nat i) = (match done (ikey p) with Some _ => true | None => false end) /\
      (forall v, done (ikey p) = Some v -> nth i results VNil = v).
  Definition later (done : nat -> option val) (args : list val) (k : nat) : option val :=
    match done k with Some v => Some v | None => first_value k args end.

  Lemma find_in_none k l : find_in k (map ikey l) = None <-> existsb (fun p => ikey p =? k) l = false.
  Proof.
    induction l as [|p l IH]; [split; reflexivity|]. cbn [map find_in existsb].
    destruct (ikey p =? k); cbn [orb]; [split; discriminate|].
    rewrite <- IH. destruct (find_in k (map ikey l)); split; intros E; try reflexivity; discriminate.
  Qed.
  Lemma find_in_some k l i : find_in k (map ikey l) = Some i -> exists p, nth_error l i = Some p /\ ikey p = k.
  Proof.
    revert i. induction l as [|p l IH]; intros i; [discriminate|]. cbn [map find_in].
    destruct (Nat.eqb_spec (ikey p) k) as [E|E].
    - intros H. inversion H; subst. exists p. split; reflexivity.
    - destruct (find_in k (map ikey l)) as [j|]; [|discriminate]. intros H. inversion H; subst. exact (IH j eq_refl).
  Qed.

  Hypothesis NK : NoDup (map ikey ks).
  Hypothesis Len : length ks <= 31.

  Lemma parse_loop_ok args : Nat.odd (length args) = false -> forall done allow bits results, holds done bits results ->
    match first_bad kwof L allow args with
    | Some er => parse_loop (map ikey ks) args allow bits results = ParErr er
    | None => exists bits' results', parse_loop (map ikey ks) args allow bits results = Parsed bits' results' /\
        holds (later done args) bits' results'
    end.
  Proof using NK Len.
    induction args as [|a|a v args IH] using pair_ind; intros Ev done allow bits results H; [| discriminate |].
    - exists bits, results. split; [reflexivity|]. destruct H as [H1 H2]. split; [exact H1|]. intros i p Np.
      unfold later. cbn [first_value]. destruct (H2 i p Np) as [A B]. destruct (done (ikey p)) as [w|] eqn:E; [|split; [exact A|discriminate]].
      split; [exact A|]. intros v0 Ev0. apply B. exact Ev0.
    - assert (Ev' : Nat.odd (length args) = false) by exact Ev. clear Ev. specialize (IH Ev').
      destruct a as [|k|z|a1 a2]; try reflexivity. cbn [first_bad parse_loop].
      set (allow' := if k =? K_ALLOW then negb (is_nil v) else allow).
      destruct (find_in k (map ikey ks)) as [i|] eqn:Fk.
      + destruct (find_in_some _ _ _ Fk) as (p & Np & Kp). pose proof (nth_error_In _ _ Np) as Ip.
        assert (Kn : known kwof L k = true).
        { unfold known. apply existsb_exists. exists p. split; [exact Ip|]. apply Nat.eqb_eq. exact Kp. }
        rewrite Kn. cbn [orb].
        assert (Li : i < length ks) by (apply nth_error_Some; congruence).
        unfold bit. replace (i <? 31) with true by (symmetry; apply Nat.ltb_lt; lia).
        rewrite land_bit by lia. destruct H as [H1 H2]. destruct (H2 i p Np) as [A B]. rewrite A.
        destruct (done (ikey p)) as [w|] eqn:Dp; cbn [negb].
        * specialize (IH done allow' bits results (conj H1 H2)).
          destruct (first_bad kwof L allow' args) as [er|]; [exact IH|].
          destruct IH as (b' & r' & E & G1 & G2). exists b', r'. split; [exact E|]. split; [exact G1|].
          intros j q Nq. destruct (G2 j q Nq) as [C D].
          assert (X : later done (VKey k :: v :: args) (ikey q) = later done args (ikey q)).
          { unfold later. destruct (done (ikey q)) as [y|] eqn:Dq; [reflexivity|]. cbn [first_value].
            destruct (Nat.eqb_spec k (ikey q)) as [Eq|Eq]; [|reflexivity]. rewrite <- Eq, <- Kp in Dq. congruence. }
          rewrite X. split; [exact C|exact D].
        * set (done' := fun k0 => if k0 =? k then Some v else done k0).
          assert (H' : holds done' (Z.lor bits (2 ^ Z.of_nat i)) (set_nth i v results)).
          { split; [rewrite length_set_nth; exact H1|]. intros j q Nq. destruct (H2 j q Nq) as [C D].
            rewrite lor_bit by lia. rewrite nth_set_nth by lia. unfold done'.
            destruct (Nat.eqb_spec (ikey q) k) as [Eq|Nq'].
            - assert (Ej : j = i).
              { apply (proj1 (NoDup_nth_error (map ikey ks)) NK).
                - apply nth_error_Some. rewrite (map_nth_error _ _ _ Nq). discriminate.
                - rewrite (map_nth_error _ _ _ Nq), (map_nth_error _ _ _ Np). congruence. }
              subst j. rewrite Z.eqb_refl, orb_true_r, Nat.eqb_refl. split; [reflexivity|]. intros w Ew. congruence.
            - assert (Ej : j <> i) by (intros X; subst j; apply Nq'; congruence).
              replace (Z.of_nat i =? Z.of_nat j)%Z with false by (symmetry; apply Z.eqb_neq; lia).
              rewrite orb_false_r. replace (j =? i) with false by (symmetry; apply Nat.eqb_neq; exact Ej). split; [exact C|exact D]. }
          specialize (IH done' allow' _ _ H').
          destruct (first_bad kwof L allow' args) as [er|]; [exact IH|].
          destruct IH as (b' & r' & E & G1 & G2). exists b', r'. split; [exact E|]. split; [exact G1|].
          intros j q Nq. destruct (G2 j q Nq) as [C D].
          assert (X : later done (VKey k :: v :: args) (ikey q) = later done' args (ikey q)).
          { unfold later, done'. cbn [first_value]. rewrite (Nat.eqb_sym k). destruct (Nat.eqb_spec (ikey q) k) as [Eq|Eq]; [|reflexivity].
            rewrite Eq, <- Kp, Dp. reflexivity. }
          rewrite X. split; [exact C|exact D].
      + assert (Kn : known kwof L k = false) by (apply find_in_none; exact Fk).
        rewrite Kn. cbn [orb]. destruct allow' eqn:Ea; [|reflexivity].
        specialize (IH done true bits results H). destruct (first_bad kwof L true args) as [er|]; [exact IH|].
        destruct IH as (b' & r' & E & G1 & G2). exists b', r'. split; [exact E|]. split; [exact G1|].
        intros j q Nq. destruct (G2 j q Nq) as [C D].
        assert (X : later done (VKey k :: v :: args) (ikey q) = later done args (ikey q)).
        { unfold later. destruct (done (ikey q)) as [y|]; [reflexivity|]. cbn [first_value].
          destruct (Nat.eqb_spec k (ikey q)) as [Eq|Eq]; [|reflexivity]. exfalso. assert (known kwof L k = true); [|congruence].
          unfold known. apply existsb_exists. exists q. split; [exact (nth_error_In _ _ Nq)|]. apply Nat.eqb_eq. symmetry. exact Eq. }
        rewrite X. split; [exact C|exact D].
  Qed.

  Definition coutcome (res : @cresult St) (o : option ((nat -> option val) * St)) : Prop :=
    match o with
    | Some (r, s) => exists e, res = CBound e s /\ agree outer e r
    | None => res = CErr E_EVAL
    end.
  Lemma compiled_defaults_run args bits results l : forall i e r s, i + length l <= 31 ->
    (forall j p, nth_error l j = Some p ->
      Z.testbit bits (Z.of_nat (i + j)) = (match first_value (ikey p) args with Some _ => true | None => false end) /\
      (forall v, first_value (ikey p) args = Some v -> nth (i + j) results VNil = v)) -> agree outer e r ->
    coutcome (compiled_defaults ev outer i (map (fun p => (ivar p, iinit p)) l) bits results e s)
      (run ev (map (key_source kwof args) l) r s).
  Proof using ev_ext.
    clear NK Len. clear L. induction l as [|p l IH]; intros i e r s Li H A.
    - exists e. split; [reflexivity|exact A].
    - cbn [length] in Li. cbn [map compiled_defaults]. unfold bit. replace (i <? 31) with true by (symmetry; apply Nat.ltb_lt; lia).
      rewrite land_bit by lia. destruct (H 0 p eq_refl) as [B V]. rewrite Nat.add_0_r in B, V. rewrite B.
      assert (H' : forall j q, nth_error l j = Some q ->
        Z.testbit bits (Z.of_nat (S i + j)) = (match first_value (ikey q) args with Some _ => true | None => false end) /\
        (forall v, first_value (ikey q) args = Some v -> nth (S i + j) results VNil = v)).
      { intros j q Nq. replace (S i + j) with (i + S j) by lia. apply H. exact Nq. }
      unfold key_source at 1. destruct (first_value (ikey p) args) as [v|] eqn:Fv; cbn [negb].
      + rewrite (V v eq_refl). cbn [KeySpec.run]. apply IH; [lia|exact H'|apply agree_cons; exact A].
      + rewrite (init_value_run ev outer ev_ext (iinit p) e r s _ _ A).
        destruct (init_value ev outer (iinit p) e s) as [[v s']|]; [|reflexivity].
        apply IH; [lia|exact H'|apply agree_cons; exact A].
  Qed.

  Theorem compiled_ok args local e r s : agree outer e r ->
    let c := compiled_keys ev outer (map (fun p => (ikey p, ivar p, iinit p)) ks) (aokeys L) args local e s in
    if Nat.odd (length args) then c = CErr E_KEYPARAM
    else match first_bad kwof L (aokeys L) args with
         | Some er => c = CErr er
         | None => coutcome c (run ev (map (key_source kwof args) ks) r s)
         end.
  Proof using NK Len ev_ext.
    intros A. cbv zeta. unfold compiled_keys. rewrite !map_map. cbn [fst snd].
    change (map (fun x => ikey x) ks) with (map ikey ks). unfold parsekeyparams. destruct args as [|a args].
    - cbn [length Nat.odd Nat.even negb first_bad]. apply compiled_defaults_run; [cbn; exact Len| |exact A].
      intros j p Np. cbn [first_value Nat.add]. split; [apply Z.testbit_0_l|discriminate].
    - destruct (Nat.odd (length (a :: args))) eqn:Od; [reflexivity|].
      assert (H0 : holds (fun _ => None) 0%Z (repeat VNil (length (map ikey ks)))).
      { split; [rewrite repeat_length, map_length; reflexivity|]. intros i p Np. split; [apply Z.testbit_0_l|discriminate]. }
      pose proof (parse_loop_ok (a :: args) Od (fun _ => None) (aokeys L) 0%Z _ H0) as P.
      destruct (first_bad kwof L (aokeys L) (a :: args)) as [er|]; [rewrite P; reflexivity|].
      destruct P as (b & rs & P & H1 & H2). rewrite P. apply compiled_defaults_run; [cbn; exact Len| |exact A].
      intros j p Np. exact (H2 j p Np).
  Qed.
End Compiled.
