(** Specification and proofs for C29 (class numbering). *)
From Verif Require Export ClassModel ClassProofs.

(** What the history says: the super class of each class and the class of each object. *)
Fixpoint class_supers (os : list cop) : list (option nat) :=
  match os with [] => [] | DefClass s :: r => s :: class_supers r | New _ :: r => class_supers r end.
Fixpoint object_classes (os : list cop) : list nat :=
  match os with [] => [] | DefClass _ :: r => object_classes r | New c :: r => c :: object_classes r end.

(** reflexive transitive super class relation: [a] is [c] or one of its ancestors *)
Inductive anc (sp : nat -> option nat) (a : nat) : nat -> Prop :=
| anc_refl : anc sp a a
| anc_up : forall c s, sp c = Some s -> anc sp a s -> anc sp a c.

Definition super_in (os : list cop) (c : nat) : option nat := nth c (class_supers os) None.

Definition clegal (n : nat) (o : cop) : Prop :=
  match o with DefClass (Some s) => s < n | DefClass None => True | New c => c < n end.
Fixpoint clegal_from (n : nat) (os : list cop) : Prop :=
  match os with
  | [] => True
  | o :: r => clegal n o /\ clegal_from (match o with DefClass _ => S n | New _ => n end) r
  end.

Lemma anc_trans : forall sp a b c, anc sp a b -> anc sp b c -> anc sp a c.
Proof. intros sp a b c H1 H2. induction H2; [exact H1|]. eapply anc_up; eauto. Qed.
Lemma anc_compare : forall sp a b d, anc sp a d -> anc sp b d -> anc sp a b \/ anc sp b a.
Proof.
  intros sp a b d H. induction H as [|c s E H IH]; intro Hb; [right; exact Hb|].
  inversion Hb as [|c' s' E' H']; subst.
  - left. eapply anc_up; eauto.
  - rewrite E in E'. injection E' as <-. auto.
Qed.
Lemma anc_le : forall sp n a c, (forall x s, x < n -> sp x = Some s -> s < x) -> c < n -> anc sp a c -> a <= c.
Proof.
  intros sp n a c B Hc H. induction H as [|c s E H IH]; [lia|]. pose proof (B c s Hc E). specialize (IH ltac:(lia)). lia.
Qed.
Lemma anc_ext : forall sp sp' n, (forall x s, x < n -> sp x = Some s -> s < x) -> (forall x, x < n -> sp x = sp' x) ->
  forall a c, c < n -> anc sp a c -> anc sp' a c.
Proof.
  intros sp sp' n B E a c Hc H. induction H as [|c s Es H IH]; [constructor|].
  pose proof (B c s Hc Es). eapply anc_up; [rewrite <- E by exact Hc; exact Es|]. apply IH. lia.
Qed.

Record cinv (t : ctab) : Prop := {
  c_below : forall c s, c < ncls t -> super t c = Some s -> s < c;
  c_cix : forall c, c < ncls t -> cix t c < ncls t /\ tdef t (cix t c) = c;
  c_def : forall i, i < ncls t -> tdef t i < ncls t /\ cix t (tdef t i) = i;
  c_sub : forall i, i < ncls t -> tsub t i < ncls t;
  c_int : forall a c, a < ncls t -> c < ncls t -> (anc (super t) a c <-> cix t a <= cix t c <= tsub t (cix t a)) }.

Lemma bumpcix_spec : forall f n t c v,
  c < f -> c < n -> (forall x s, x < n -> super t x = Some s -> s < x) ->
  (forall x, anc (super t) x c -> tdef t (cix t x) = x) ->
  (forall x s, anc (super t) x c -> super t x = Some s -> tsub t (cix t x) <= tsub t (cix t s)) ->
  exists g, bumpcix f t (cix t c) v = Some (set_sub t g) /\
    (forall x, anc (super t) x c -> g (cix t x) = Nat.max (tsub t (cix t x)) v) /\
    (forall k, (forall x, anc (super t) x c -> cix t x <> k) -> g k = tsub t k).
Proof.
  induction f as [|f IH]; intros n t c v Hf Hn B C M; [lia|]. cbn [bumpcix].
  destruct (Nat.ltb_spec (tsub t (cix t c)) v) as [Lt|Ge].
  - set (t1 := set_sub t (upd (tsub t) (cix t c) v)).
    assert (S1 : super t1 (tdef t1 (cix t c)) = super t c).
    { cbn. rewrite (C c (anc_refl _ _)). reflexivity. }
    rewrite S1. destruct (super t c) as [s|] eqn:Es.
    + pose proof (B c s Hn Es) as Hs.
      assert (Ne : forall x, anc (super t) x s -> cix t x <> cix t c).
      { intros x Hx E. pose proof (anc_le _ n x s B ltac:(lia) Hx).
        assert (x = c); [|lia]. rewrite <- (C x (anc_up _ _ _ _ Es Hx)), <- (C c (anc_refl _ _)), E. reflexivity. }
      assert (Ts : forall x, anc (super t) x s -> tsub t1 (cix t x) = tsub t (cix t x)).
      { intros x Hx. cbn. apply upd_other. apply Ne. exact Hx. }
      destruct (IH n t1 s v) as [g [Hg [G1 G2]]].
      * lia. * lia. * exact B.
      * cbn. intros x Hx. apply C. eapply anc_up; eauto.
      * intros x s' Hx Hs'. cbn [cix set_sub super t1] in *. assert (Hx' : anc (super t) s' s) by (eapply anc_trans; [|exact Hx]; eapply anc_up; [exact Hs'|apply anc_refl]).
        rewrite (Ts x Hx), (Ts s' Hx'). apply M; [eapply anc_up; eauto|exact Hs'].
      * exists g. split; [exact Hg|]. cbn [cix super set_sub t1] in G1, G2. split.
        -- intros x Hx. inversion Hx as [|c' s' E' H']; subst.
           ++ rewrite G2; [|intros y Hy; apply Ne; exact Hy]. cbn. rewrite upd_same. lia.
           ++ rewrite Es in E'. injection E' as <-. rewrite G1 by exact H'. rewrite Ts by exact H'. reflexivity.
        -- intros k Hk. rewrite G2; [|intros x Hx; apply Hk; eapply anc_up; eauto]. cbn. apply upd_other.
           intros ->. apply (Hk c); [apply anc_refl|reflexivity].
    + exists (upd (tsub t) (cix t c) v). split; [reflexivity|]. split.
      * intros x Hx. inversion Hx; subst; [|congruence]. rewrite upd_same. lia.
      * intros k Hk. apply upd_other. intros ->. apply (Hk c); [apply anc_refl|reflexivity].
  - exists (tsub t). split; [destruct t; reflexivity|]. split; [|reflexivity].
    assert (Mono : forall d, anc (super t) d c -> forall x, anc (super t) x d -> tsub t (cix t d) <= tsub t (cix t x)).
    { intros d Hd x Hx. induction Hx as [|y s Es Hx IHx]; [lia|].
      specialize (M y s Hd Es). specialize (IHx ltac:(eapply anc_trans; [|exact Hd]; eapply anc_up; [exact Es|apply anc_refl])). lia. }
    intros x Hx. specialize (Mono c (anc_refl _ _) x Hx). lia.
Qed.

Definition sh (J x : nat) : nat := if J <=? x then x + 1 else x.
Lemma sh_mono : forall J x y, x <= y <-> sh J x <= sh J y.
Proof. intros. unfold sh. destruct (Nat.leb_spec J x), (Nat.leb_spec J y); lia. Qed.

Record mid (t0 : ctab) (J : nat) (t : ctab) : Prop := {
  m_super : super t = super t0; m_ncls : ncls t = ncls t0; m_objs : objs t = objs t0;
  m_cix : forall c, c < ncls t0 -> cix t c = sh J (cix t0 c);
  m_def : forall k, k < J -> tdef t k = tdef t0 k;
  m_def' : forall k, J <= k < ncls t0 -> tdef t (k + 1) = tdef t0 k;
  m_sub : forall k, k < J -> tsub t k = sh J (tsub t0 k);
  m_sub' : forall k, J <= k < ncls t0 -> tsub t (k + 1) = tsub t0 k + 1 }.

(** the subtree of a class ends no later than that of its ancestors *)
Lemma sub_mono : forall t a c, cinv t -> a < ncls t -> c < ncls t -> anc (super t) a c -> tsub t (cix t c) <= tsub t (cix t a).
Proof.
  intros t a c I Ha Hc H.
  destruct (c_cix _ I c Hc) as [Hx Hd]. pose proof (c_sub _ I _ Hx) as Hs.
  destruct (c_def _ I _ Hs) as [D1 D2]. set (d := tdef t (tsub t (cix t c))) in *.
  assert (R : cix t c <= cix t c <= tsub t (cix t c)) by (apply (c_int _ I); auto; apply anc_refl).
  assert (A : anc (super t) c d) by (apply (c_int _ I); auto; lia).
  pose proof (proj1 (c_int _ I a d Ha D1) (anc_trans _ _ _ _ H A)). lia.
Qed.

Lemma shift_one_spec : forall t0 i t, cinv t0 -> i < ncls t0 -> mid t0 (S i) t ->
  exists t', shift_one t i = Some t' /\ mid t0 i t'.
Proof.
  intros t0 i t I Hi Md. destruct Md as [m1 m2 m3 m4 m5 m6 m7 m8].
  destruct (c_def _ I i Hi) as [Hc Ec]. set (c := tdef t0 i) in *.
  assert (Ic : cix t c = i). { rewrite m4 by exact Hc. rewrite Ec. unfold sh. destruct (Nat.leb_spec (S i) i); lia. }
  assert (Up : forall x, anc (super t0) x c -> x < ncls t0 /\ cix t0 x <= i /\ cix t x = cix t0 x).
  { intros x Hx. pose proof (anc_le _ (ncls t0) x c (c_below _ I) Hc Hx) as Lx.
    assert (Hxn : x < ncls t0) by lia. split; [exact Hxn|].
    pose proof (proj1 (c_int _ I x c Hxn Hc) Hx) as Q. split; [lia|].
    rewrite m4 by exact Hxn. unfold sh. destruct (Nat.leb_spec (S i) (cix t0 x)); lia. }
  destruct (bumpcix_spec (S (ncls t)) (ncls t0) t c (i + 1)) as [g [Hg [G1 G2]]].
  - lia. - exact Hc. - rewrite m1. apply (c_below _ I).
  - rewrite m1. intros x Hx. destruct (Up x Hx) as [U1 [U2 U3]]. rewrite U3, m5 by lia. apply (proj2 (c_cix _ I x U1)).
  - rewrite m1. intros x s Hx Hs. destruct (Up x Hx) as [U1 [U2 U3]].
    assert (Hsc : anc (super t0) s c) by (eapply anc_trans; [|exact Hx]; eapply anc_up; [exact Hs|apply anc_refl]).
    destruct (Up s Hsc) as [V1 [V2 V3]]. rewrite U3, V3, !m7 by lia. apply (proj1 (sh_mono _ _ _)).
    apply (sub_mono _ s x I V1 U1). eapply anc_up; [exact Hs|apply anc_refl].
  - rewrite Ic in Hg. unfold shift_one. rewrite Hg. cbn [tdef tsub cix super ncls objs set_sub]. eexists. split; [reflexivity|].
    rewrite m1 in G1, G2.
    assert (Gk : forall k, k < S i -> g k = sh i (tsub t0 k)).
    { intros k Hk. assert (Hkn : k < ncls t0) by lia. destruct (c_def _ I k Hkn) as [K1 K2].
      destruct (Nat.le_gt_cases i (tsub t0 k)) as [Ge|Lt].
      - assert (A : anc (super t0) (tdef t0 k) c). { apply (c_int _ I); auto. rewrite K2, Ec. lia. }
        pose proof (G1 _ A) as G. destruct (Up _ A) as [_ [_ U3]]. rewrite U3, K2 in G. rewrite G, m7 by exact Hk.
        unfold sh. destruct (Nat.leb_spec (S i) (tsub t0 k)), (Nat.leb_spec i (tsub t0 k)); lia.
      - rewrite G2.
        + rewrite m7 by exact Hk. unfold sh. destruct (Nat.leb_spec (S i) (tsub t0 k)), (Nat.leb_spec i (tsub t0 k)); lia.
        + intros x Hx E. destruct (Up x Hx) as [U1 [U2 U3]]. rewrite U3 in E.
          pose proof (proj1 (c_int _ I x c U1 Hc) Hx) as Q. rewrite E, Ec in Q. lia. }
    assert (Gk' : forall k, i < k < ncls t0 -> g (k + 1) = tsub t0 k + 1).
    { intros k Hk. rewrite G2; [apply m8; lia|]. intros x Hx E. destruct (Up x Hx) as [_ [U2 U3]]. lia. }
    assert (Di : upd (tdef t) (i + 1) (tdef t i) i = c).
    { rewrite upd_other by lia. rewrite m5 by lia. reflexivity. }
    constructor; cbn [tdef tsub cix super ncls objs]; auto.
    + intros d Hd. rewrite Di. unfold upd. destruct (Nat.eqb_spec d c) as [->|Ne].
      * rewrite Ic, Ec. unfold sh. destruct (Nat.leb_spec i i); lia.
      * rewrite m4 by exact Hd. assert (cix t0 d <> i).
        { intro E. apply Ne. rewrite <- (proj2 (c_cix _ I d Hd)), E. reflexivity. }
        unfold sh. destruct (Nat.leb_spec (S i) (cix t0 d)), (Nat.leb_spec i (cix t0 d)); lia.
    + intros k Hk. rewrite upd_other by lia. apply m5. lia.
    + intros k Hk. unfold upd. destruct (Nat.eqb_spec (k + 1) (i + 1)) as [E|Ne].
      * replace k with i by lia. apply m5. lia.
      * apply m6. lia.
    + intros k Hk. rewrite upd_other by lia. apply Gk. lia.
    + intros k Hk. unfold upd. destruct (Nat.eqb_spec (k + 1) (i + 1)) as [E|Ne].
      * replace k with i by lia. rewrite Gk by lia. unfold sh.
        assert (i <= tsub t0 i); [|destruct (Nat.leb_spec i (tsub t0 i)); lia].
        pose proof (proj1 (c_int _ I c c Hc Hc) (anc_refl _ _)) as Q. rewrite Ec in Q. lia.
      * apply Gk'. lia.
Qed.

Lemma shift_loop_spec : forall k t0 N t, cinv t0 -> N + k <= ncls t0 -> mid t0 (N + k) t ->
  exists t', shift_loop k t N = Some t' /\ mid t0 N t'.
Proof.
  induction k as [|k IH]; intros t0 N t I H Md; cbn [shift_loop].
  - exists t. rewrite Nat.add_0_r in Md. auto.
  - replace (N + S k) with (S (N + k)) in Md by lia.
    destruct (shift_one_spec t0 (N + k) t I ltac:(lia) Md) as [t1 [E M1]]. rewrite E. apply IH; auto. lia.
Qed.

Lemma mid_start : forall t0, cinv t0 -> mid t0 (ncls t0) t0.
Proof.
  intros t0 I. constructor; auto; try lia.
  - intros c Hc. pose proof (proj1 (c_cix _ I c Hc)). unfold sh. destruct (Nat.leb_spec (ncls t0) (cix t0 c)); lia.
  - intros k Hk. pose proof (c_sub _ I k Hk). unfold sh. destruct (Nat.leb_spec (ncls t0) (tsub t0 k)); lia.
Qed.

Lemma cinv_super : forall t e sup, cinv t -> e = ncls t ->
  cinv (mkTab (upd (super t) e sup) (cix t) (tdef t) (tsub t) (ncls t) (objs t)).
Proof.
  intros t e sup I ->. constructor; cbn; try apply I.
  - intros c s Hc. rewrite upd_other by lia. apply (c_below _ I). exact Hc.
  - intros a c Ha Hc. rewrite <- (c_int _ I a c Ha Hc). split; apply (anc_ext _ _ (ncls t)); auto.
    + intros x s Hx. rewrite upd_other by lia. apply (c_below _ I). exact Hx.
    + intros x Hx. apply upd_other. lia.
    + apply (c_below _ I).
    + intros x Hx. symmetry. apply upd_other. lia.
Qed.

Definition objs_ok (t : ctab) (cs : list nat) : Prop :=
  Forall (fun c => c < ncls t) cs /\ objs t = map (cix t) cs.

(** cix of existing classes after [enterclass] *)
Lemma enterclass_inv : forall t0 sup cs, cinv t0 -> objs_ok t0 cs -> ncls t0 < MAXCLASS ->
  (forall s, sup = Some s -> s < ncls t0) ->
  exists t', enterclass t0 sup = Some t' /\ cinv t' /\ objs_ok t' cs /\ ncls t' = S (ncls t0) /\
    super t' = upd (super t0) (ncls t0) sup.
Proof.
  intros t0' sup cs I0 [Of Oe] Hm Hsup. unfold enterclass.
  set (e := ncls t0'). set (t0 := mkTab _ _ _ _ _ _).
  assert (I : cinv t0) by (apply cinv_super; auto).
  assert (En : ncls t0 = e) by reflexivity.
  replace (MAXCLASS <=? ncls t0) with false by (symmetry; apply Nat.leb_gt; rewrite En; exact Hm).
  destruct sup as [s|].
  - specialize (Hsup s eq_refl). cbv zeta. set (N := tsub t0 (cix t0 s) + 1).
    destruct (c_cix _ I s Hsup) as [Cs Ds]. pose proof (c_sub _ I _ Cs) as Ss.
    assert (HN : N <= ncls t0) by (unfold N; lia).
    assert (CsN : cix t0 s <= tsub t0 (cix t0 s)) by (apply (proj1 (c_int _ I s s Hsup Hsup) (anc_refl _ _))).
    destruct (shift_loop_spec (ncls t0 - N) t0 N t0 I ltac:(lia)) as [t1 [E1 M]].
    { replace (N + (ncls t0 - N)) with (ncls t0) by lia. apply mid_start. exact I. }
    rewrite E1. destruct M as [m1 m2 m3 m4 m5 m6 m7 m8].
    assert (Up : forall x, anc (super t0) x s -> x < ncls t0 /\ cix t0 x < N /\ cix t1 x = cix t0 x).
    { intros x Hx. pose proof (anc_le _ (ncls t0) x s (c_below _ I) Hsup Hx) as Lx.
      assert (Hxn : x < ncls t0) by (cbn in *; lia). split; [exact Hxn|].
      pose proof (proj1 (c_int _ I x s Hxn Hsup) Hx) as Q. split; [unfold N; lia|].
      rewrite m4 by exact Hxn. unfold sh. destruct (Nat.leb_spec N (cix t0 x)); [unfold N in *; lia|reflexivity]. }
    destruct (bumpcix_spec (S (ncls t1)) (ncls t0) t1 s N) as [g [Hg [G1 G2]]].
    + rewrite m2. cbn in *. lia.
    + exact Hsup.
    + rewrite m1. apply (c_below _ I).
    + rewrite m1. intros x Hx. destruct (Up x Hx) as [U1 [U2 U3]]. rewrite U3, m5 by lia. apply (proj2 (c_cix _ I x U1)).
    + rewrite m1. intros x s' Hx Hs. destruct (Up x Hx) as [U1 [U2 U3]].
      assert (Hsc : anc (super t0) s' s) by (eapply anc_trans; [|exact Hx]; eapply anc_up; [exact Hs|apply anc_refl]).
      destruct (Up s' Hsc) as [V1 [V2 V3]]. rewrite U3, V3, !m7 by lia. apply (proj1 (sh_mono _ _ _)).
      apply (sub_mono _ s' x I V1 U1). eapply anc_up; [exact Hs|apply anc_refl].
    + rewrite (proj2 (proj2 (Up s (anc_refl _ _)))) in Hg. rewrite Hg. eexists. split; [reflexivity|].
      rewrite m1 in G1, G2.
      (* the new numbering *)
      assert (Gs : forall c, c < ncls t0 -> g (sh N (cix t0 c)) = sh N (tsub t0 (cix t0 c)) \/
                     anc (super t0) c s).
      { intros c Hc. destruct (Nat.le_gt_cases N (cix t0 c)) as [Ge|Lt].
        - left. unfold sh at 1. destruct (Nat.leb_spec N (cix t0 c)); [|lia].
          pose proof (proj1 (c_cix _ I c Hc)) as Cc.
          rewrite G2.
          + rewrite m8 by lia. unfold sh. assert (cix t0 c <= tsub t0 (cix t0 c)) by (apply (proj1 (c_int _ I c c Hc Hc) (anc_refl _ _))).
            destruct (Nat.leb_spec N (tsub t0 (cix t0 c))); lia.
          + intros x Hx E. destruct (Up x Hx) as [U1 [U2 U3]]. lia.
        - destruct (Nat.le_gt_cases (cix t0 c) (cix t0 s)) as [L1|L1].
          + destruct (Nat.le_gt_cases (cix t0 s) (tsub t0 (cix t0 c))) as [L2|L2].
            * right. apply (c_int _ I); auto.
            * left. unfold sh at 1. destruct (Nat.leb_spec N (cix t0 c)); [lia|]. rewrite G2; [apply m7; exact Lt|].
              intros x Hx E. destruct (Up x Hx) as [U1 [U2 U3]]. rewrite U3 in E.
              assert (x = c) by (rewrite <- (proj2 (c_cix _ I x U1)), <- (proj2 (c_cix _ I c Hc)), E; reflexivity). subst x.
              pose proof (proj1 (c_int _ I c s Hc Hsup) Hx). lia.
          + left. unfold sh at 1. destruct (Nat.leb_spec N (cix t0 c)); [lia|]. rewrite G2; [apply m7; exact Lt|].
            intros x Hx E. destruct (Up x Hx) as [U1 [U2 U3]]. rewrite U3 in E.
            assert (x = c) by (rewrite <- (proj2 (c_cix _ I x U1)), <- (proj2 (c_cix _ I c Hc)), E; reflexivity). subst x.
            pose proof (proj1 (c_int _ I c s Hc Hsup) Hx). lia. }
      assert (Ga : forall c, anc (super t0) c s -> g (cix t0 c) = tsub t0 (cix t0 c) + 1 /\ N <= tsub t0 (cix t0 c) + 1).
      { intros c Hx. destruct (Up c Hx) as [U1 [U2 U3]]. pose proof (G1 c Hx) as G. rewrite U3, m7 in G by exact U2.
        pose proof (sub_mono _ c s I U1 Hsup Hx) as Sm. split; [|unfold N; lia]. rewrite G. unfold sh, N in *.
        destruct (Nat.leb_spec (tsub t0 (cix t0 s) + 1) (tsub t0 (cix t0 c))); lia. }
      assert (Ro : (if N <? ncls t1 then recixobj N (objs t1) else objs t1) = map (cix t1) cs).
      { rewrite m3, m2. cbn [objs t0]. rewrite Oe. rewrite Forall_forall in Of.
        destruct (Nat.ltb_spec N (ncls t0)).
        - unfold recixobj. rewrite map_map. apply map_ext_in. intros c Hc. rewrite m4 by (apply Of; exact Hc). reflexivity.
        - apply map_ext_in. intros c Hc. rewrite m4 by (apply Of; exact Hc). unfold sh. pose proof (proj1 (c_cix _ I c (Of c Hc))).
          cbn [cix t0] in *. destruct (Nat.leb_spec N (cix t0' c)); lia. }
      match goal with |- cinv ?T /\ _ => set (t' := T) end.
      assert (S' : super t' = super t0). { unfold t'. cbn [super]. destruct (N <? _); cbn; exact m1. }
      assert (N' : ncls t' = S (ncls t0)). { unfold t'. cbn [ncls]. destruct (N <? _); cbn; rewrite m2; reflexivity. }
      assert (C' : cix t' = upd (cix t1) e N). { unfold t'. cbn [cix]. destruct (N <? _); reflexivity. }
      assert (D' : tdef t' = upd (tdef t1) N e). { unfold t'. cbn [tdef]. destruct (N <? _); reflexivity. }
      assert (T' : tsub t' = upd g N N). { unfold t'. cbn [tsub]. destruct (N <? _); reflexivity. }
      assert (O' : objs t' = map (cix t1) cs).
      { rewrite <- Ro. unfold t'. cbn [objs]. cbn [ncls set_sub]. destruct (N <? ncls t1); reflexivity. }
      clearbody t'.
      assert (Cc : forall c, c < ncls t0 -> cix t' c = sh N (cix t0 c)).
      { intros c Hc. rewrite C', upd_other by lia. apply m4. exact Hc. }
      assert (Ce : cix t' e = N) by (rewrite C', upd_same; reflexivity).
      assert (ShN : forall x, sh N x <> N). { intro x. unfold sh. destruct (Nat.leb_spec N x); lia. }
      assert (Sc : forall c, c < ncls t0 -> tsub t' (cix t' c) = g (sh N (cix t0 c))).
      { intros c Hc. rewrite T', (Cc c Hc), upd_other by apply ShN. reflexivity. }
      assert (Se : tsub t' N = N) by (rewrite T', upd_same; reflexivity).
      assert (Anc1 : forall a c, c < ncls t0 -> anc (super t0) a c -> a < ncls t0).
      { intros a c Hc H. pose proof (anc_le _ (ncls t0) a c (c_below _ I) Hc H). lia. }
      assert (Sup_e : super t0 e = Some s) by (cbn; apply upd_same).
      assert (Sub' : forall i, i < S (ncls t0) -> tsub t' i < S (ncls t0)).
      { intros i Hi. destruct (Nat.eq_dec i N) as [->|Ni]; [rewrite Se; lia|].
        set (j := if N <=? i then i - 1 else i).
        assert (Hj : j < ncls t0 /\ sh N j = i). { unfold j, sh. destruct (Nat.leb_spec N i); [destruct (Nat.leb_spec N (i - 1)); lia|]. split; [lia|]. destruct (Nat.leb_spec N i); lia. }
        destruct Hj as [Hj Ej]. destruct (c_def _ I j Hj) as [J1 J2].
        pose proof (Sc _ J1) as Q. rewrite (Cc _ J1), J2, Ej in Q. rewrite Q. pose proof (c_sub _ I j Hj).
        destruct (Gs _ J1) as [G|G]; [rewrite J2, Ej in G; rewrite G; unfold sh; destruct (Nat.leb_spec N (tsub t0 j)); lia|].
        destruct (Up _ G) as [_ [U2 _]]. rewrite J2 in U2. destruct (Ga _ G) as [Q1 _]. rewrite J2 in Q1.
        unfold sh in Ej. destruct (Nat.leb_spec N j); [lia|]. rewrite <- Ej. rewrite Q1. lia. }
      split; [|split; [|split]].
      * constructor; rewrite ?N', ?S'.
        -- intros c s' Hc E. destruct (Nat.eq_dec c e) as [->|Ne]; [rewrite Sup_e in E; injection E as <-; exact Hsup|].
           apply (c_below _ I); [cbn in *; lia|exact E].
        -- intros c Hc. destruct (Nat.eq_dec c e) as [->|Ne].
           ++ rewrite Ce, D', upd_same. split; [lia|reflexivity].
           ++ assert (Hc' : c < ncls t0) by (cbn in *; lia). rewrite (Cc c Hc'). destruct (c_cix _ I c Hc') as [K1 K2].
              split; [unfold sh; destruct (Nat.leb_spec N (cix t0 c)); lia|].
              rewrite D', upd_other by apply ShN. unfold sh. destruct (Nat.leb_spec N (cix t0 c)).
              ** rewrite m6 by lia. exact K2.
              ** rewrite m5 by lia. exact K2.
        -- intros i Hi. destruct (Nat.eq_dec i N) as [->|Ni].
           ++ rewrite D', upd_same, Ce. split; [cbn; unfold e; lia|reflexivity].
           ++ set (j := if N <=? i then i - 1 else i).
              assert (Hj : j < ncls t0 /\ sh N j = i). { unfold j, sh. destruct (Nat.leb_spec N i); [destruct (Nat.leb_spec N (i - 1)); lia|]. split; [lia|]. destruct (Nat.leb_spec N i); lia. }
              destruct Hj as [Hj Ej]. destruct (c_def _ I j Hj) as [J1 J2].
              assert (Dj : tdef t' i = tdef t0 j).
              { rewrite D', upd_other by exact Ni. rewrite <- Ej. unfold sh. destruct (Nat.leb_spec N j); [apply m6; lia|apply m5; lia]. }
              rewrite Dj. split; [lia|]. rewrite (Cc _ J1), J2. exact Ej.
        -- exact Sub'.
        -- intros a c Ha Hc. destruct (Nat.eq_dec c e) as [->|Nc].
           ++ rewrite Ce. destruct (Nat.eq_dec a e) as [->|Na].
              ** rewrite Ce, Se. split; [lia|]. intros _. apply anc_refl.
              ** assert (Ha' : a < ncls t0) by (cbn in *; lia). rewrite (Sc a Ha'), (Cc a Ha').
                 assert (Iff : anc (super t0) a e <-> anc (super t0) a s).
                 { split; intro H; [|eapply anc_up; eauto]. inversion H as [|x y E H']; subst; [contradiction|]. rewrite Sup_e in E. injection E as <-. exact H'. }
                 rewrite Iff. split; intro H.
                 --- destruct (Up a H) as [_ [U2 _]]. destruct (Ga a H) as [Q1 Q2]. unfold sh. destruct (Nat.leb_spec N (cix t0 a)); [lia|]. lia.
                 --- destruct (Gs a Ha') as [G|G]; [|exact G]. rewrite G in H.
                     assert (Ca : cix t0 a <= N - 1 /\ N <= tsub t0 (cix t0 a)).
                     { unfold sh in H. destruct (Nat.leb_spec N (cix t0 a)), (Nat.leb_spec N (tsub t0 (cix t0 a))); lia. }
                     assert (HN1 : N - 1 < ncls t0) by (unfold N; lia).
                     destruct (c_def _ I _ HN1) as [D1 D2]. set (d := tdef t0 (N - 1)) in *.
                     assert (A1 : anc (super t0) a d) by (apply (c_int _ I); auto; lia).
                     assert (A2 : anc (super t0) s d). { apply (c_int _ I); auto. unfold N in *. lia. }
                     destruct (anc_compare _ _ _ _ A1 A2) as [A3|A3]; [exact A3|].
                     pose proof (sub_mono _ s a I Hsup Ha' A3). unfold N in *. lia.
           ++ assert (Hc' : c < ncls t0) by (cbn in *; lia). rewrite (Cc c Hc'). destruct (Nat.eq_dec a e) as [->|Na].
              ** rewrite Ce, Se. split; intro H.
                 --- pose proof (anc_le _ (ncls t0) e c (c_below _ I) Hc' H). cbn in *. unfold e in *. lia.
                 --- pose proof (ShN (cix t0 c)). lia.
              ** assert (Ha' : a < ncls t0) by (cbn in *; lia). rewrite (Sc a Ha'), (Cc a Ha').
                 rewrite (c_int _ I a c Ha' Hc'). rewrite <- (sh_mono N (cix t0 a) (cix t0 c)).
                 destruct (Gs a Ha') as [G|G].
                 --- rewrite G, <- (sh_mono N). reflexivity.
                 --- destruct (Up a G) as [_ [U2 _]]. destruct (Ga a G) as [Q1 Q2]. pose proof (ShN (cix t0 c)).
                     unfold sh in *. destruct (Nat.leb_spec N (cix t0 a)); [lia|]. rewrite Q1.
                     destruct (Nat.leb_spec N (cix t0 c)); lia.
      * split; [rewrite N'; eapply Forall_impl; [|exact Of]; cbn; intros; lia|].
        rewrite O', C'. apply map_ext_in. intros c Hc. rewrite Forall_forall in Of. specialize (Of c Hc). rewrite upd_other by (unfold e; lia). reflexivity.
      * exact N'.
      * rewrite S'. reflexivity.
  - cbv zeta. cbn [super cix tdef tsub ncls objs t0]. eexists. split; [reflexivity|].
    assert (Se : forall x, x < e -> upd (super t0') e None x = super t0' x) by (intros; apply upd_other; lia).
    split; [|split; [|split; reflexivity]].
    + pose proof (c_cix _ I0) as K1. pose proof (c_def _ I0) as K2. pose proof (c_sub _ I0) as K3. pose proof (c_int _ I) as K4. cbn in K4.
      fold e in K1, K2, K3, K4.
      constructor; cbn [super cix tdef tsub ncls objs]; fold e.
      * intros c s Hc E. destruct (Nat.eq_dec c e) as [->|Ne]; [rewrite upd_same in E; discriminate|].
        rewrite Se in E by lia. apply (c_below _ I0); [fold e; lia|exact E].
      * intros c Hc. unfold upd. destruct (Nat.eqb_spec c e) as [->|Ne]; [rewrite Nat.eqb_refl; lia|].
        assert (Hc' : c < e) by lia. destruct (K1 c Hc') as [L1 L2]. destruct (Nat.eqb_spec (cix t0' c) e); [lia|]. lia.
      * intros i Hi. unfold upd. destruct (Nat.eqb_spec i e) as [->|Ne]; [rewrite Nat.eqb_refl; lia|].
        assert (Hc' : i < e) by lia. destruct (K2 i Hc') as [L1 L2]. destruct (Nat.eqb_spec (tdef t0' i) e); lia.
      * intros i Hi. unfold upd. destruct (Nat.eqb_spec i e) as [->|Ne]; [lia|]. specialize (K3 i ltac:(lia)). lia.
      * assert (Ue : upd (cix t0') e e e = e) by apply upd_same.
        assert (Uc : forall c, c < e -> upd (cix t0') e e c = cix t0' c) by (intros; apply upd_other; lia).
        assert (Te : upd (tsub t0') e e e = e) by apply upd_same.
        assert (Tc : forall i, i < e -> upd (tsub t0') e e i = tsub t0' i) by (intros; apply upd_other; lia).
        intros a c Ha Hc. destruct (Nat.eq_dec c e) as [->|Nc].
        -- rewrite Ue. destruct (Nat.eq_dec a e) as [->|Na].
           ++ rewrite Ue, Te. split; [lia|]. intros _. apply anc_refl.
           ++ destruct (K1 a ltac:(lia)) as [L1 L2]. rewrite (Uc a), (Tc _ L1) by lia.
              split; intro H.
              ** inversion H as [|x y E H']; subst; [contradiction|]. rewrite upd_same in E. discriminate.
              ** specialize (K3 (cix t0' a) L1). lia.
        -- assert (Hc' : c < e) by lia. destruct (K1 c Hc') as [L1 L2]. rewrite (Uc c Hc'). destruct (Nat.eq_dec a e) as [->|Na].
           ++ rewrite Ue, Te. split; intro H; [|lia].
              pose proof (anc_le _ e e c (c_below _ I) Hc' H). lia.
           ++ assert (Ha' : a < e) by lia. destruct (K1 a Ha') as [M1 M2]. rewrite (Uc a Ha'), (Tc _ M1).
              apply K4; assumption.
    + split; cbn [ncls objs cix]; [eapply Forall_impl; [|exact Of]; cbn; intros; fold e; lia|]. rewrite Oe.
      apply map_ext_in. intros c Hc. rewrite Forall_forall in Of. specialize (Of c Hc). rewrite upd_other by (unfold e; lia). reflexivity.
Qed.

(** relation between a state and the history that produced it *)
Lemma crun_from : forall os t sp cs, cinv t -> objs_ok t cs -> ncls t = length sp ->
  (forall c, c < ncls t -> super t c = nth c sp None) ->
  clegal_from (ncls t) os -> ncls t + length (class_supers os) <= MAXCLASS ->
  exists t', crun t os = Some t' /\ cinv t' /\ objs_ok t' (cs ++ object_classes os) /\
    ncls t' = length (sp ++ class_supers os) /\ (forall c, c < ncls t' -> super t' c = nth c (sp ++ class_supers os) None).
Proof.
  induction os as [|o os IH]; intros t sp cs I O En Es L M.
  - exists t. cbn. rewrite !app_nil_r. auto.
  - destruct o as [sup|c]; cbn [crun cstep clegal_from class_supers object_classes] in *.
    + destruct L as [L1 L2]. cbn [length] in M.
      destruct (enterclass_inv t sup cs I O ltac:(lia)) as [t1 [E1 [I1 [O1 [N1 S1]]]]].
      { intros s ->. exact L1. }
      rewrite E1. destruct (IH t1 (sp ++ [sup]) cs I1 O1) as [t2 [E2 [I2 [O2 [N2 S2]]]]].
      * rewrite N1, app_length, En. cbn. lia.
      * intros c Hc. rewrite S1. unfold upd. destruct (Nat.eqb_spec c (ncls t)) as [->|Ne].
        -- rewrite app_nth2 by lia. rewrite En, Nat.sub_diag. reflexivity.
        -- rewrite app_nth1 by lia. apply Es. lia.
      * rewrite N1. exact L2.
      * lia.
      * exists t2. rewrite <- app_assoc in N2, S2. cbn in N2, S2. auto.
    + destruct L as [L1 L2]. destruct O as [Of Oe].
      destruct (IH (makeobject t c) sp (cs ++ [c])) as [t2 [E2 [I2 [O2 [N2 S2]]]]]; auto.
      * destruct I. constructor; auto.
      * split; cbn; [apply Forall_app; split; auto|]. rewrite map_app, Oe. reflexivity.
      * exists t2. rewrite <- app_assoc in O2. auto.
Qed.

Lemma class_run : forall os, clegal_from 0 os -> length (class_supers os) <= MAXCLASS ->
  exists t, crun no_classes os = Some t /\
    (forall a c, a < length (class_supers os) -> c < length (class_supers os) ->
       (subclassp t c a = true <-> anc (super_in os) a c)) /\
    map (classof t) (objs t) = object_classes os /\
    (forall i a, i < length (object_classes os) -> a < length (class_supers os) ->
       (derivedp t (nth i (objs t) 0) a = true <-> anc (super_in os) a (nth i (object_classes os) 0))).
Proof.
  intros os L M.
  destruct (crun_from os no_classes [] []) as [t [E [I [[Of Oe] [N S]]]]]; auto.
  - constructor; cbn; intros; lia.
  - split; [constructor|reflexivity].
  - cbn. intros; lia.
  - cbn [app] in *. exists t. split; [exact E|].
    assert (X : forall a c, a < ncls t -> c < ncls t -> (anc (super t) a c <-> anc (super_in os) a c)).
    { intros a c Ha Hc. split; apply (anc_ext _ _ (ncls t)); auto; try apply (c_below _ I).
      - intros x s Hx H. unfold super_in in H. rewrite <- S in H by exact Hx. eapply (c_below _ I); eauto.
      - intros x Hx. symmetry. apply S. exact Hx. }
    rewrite <- N. split; [|split].
    + intros a c Ha Hc. unfold subclassp. rewrite andb_true_iff, !Nat.leb_le. rewrite <- (X a c Ha Hc). symmetry. apply (c_int _ I); auto.
    + rewrite Oe, map_map. erewrite map_ext_in; [apply map_id|]. intros c Hc. rewrite Forall_forall in Of. apply (c_cix _ I). apply Of. exact Hc.
    + intros i a Hi Ha. rewrite Oe.
      assert (Hn : nth i (object_classes os) 0 < ncls t). { rewrite Forall_forall in Of. apply Of. apply nth_In. exact Hi. }
      rewrite (nth_indep _ 0 (cix t 0)) by (rewrite map_length; exact Hi). rewrite map_nth.
      unfold derivedp. rewrite andb_true_iff, !Nat.leb_le. rewrite <- (X a _ Ha Hn). symmetry. apply (c_int _ I); auto.
Qed.
