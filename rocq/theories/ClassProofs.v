(** Specifications and proofs for C28 (property lists) and C30 (method lookup). *)
From Verif Require Export ClassModel.

(** * C28 *)
(** what a history says about an indicator: the last Put wins, Rem forgets *)
Fixpoint last_put (os : list pop) (tag : N) (acc : option N) : option N :=
  match os with
  | [] => acc
  | Put t v :: r => last_put r tag (if N.eqb t tag then Some v else acc)
  | Rem t :: r => last_put r tag (if N.eqb t tag then None else acc)
  end.

Lemma last_put_app : forall a b tag acc, last_put (a ++ b) tag acc = last_put b tag (last_put a tag acc).
Proof. induction a as [|[t v|t] a IH]; intros; cbn; auto. Qed.

Record props_ok (p : props) (m : N -> option N) : Prop := {
  ok_nodup : NoDup (pl p);
  ok_fresh : Forall (fun a => a < fresh p) (pl p);
  ok_keys : NoDup (map (fun a => fst (cells p a)) (pl p));
  ok_map : forall tag v, m tag = Some v <-> exists a, In a (pl p) /\ cells p a = (tag, v) }.

Lemma assq_some : forall tag h l a, assq tag h l = Some a -> In a l /\ fst (h a) = tag.
Proof.
  induction l as [|b r IH]; cbn; intros a H; [discriminate|].
  destruct (N.eqb_spec (fst (h b)) tag).
  - injection H as ->. auto.
  - destruct (IH _ H). auto.
Qed.
Lemma assq_none : forall tag h l, assq tag h l = None -> forall a, In a l -> fst (h a) <> tag.
Proof.
  induction l as [|b r IH]; cbn; intros H a Ha; [contradiction|].
  destruct (N.eqb_spec (fst (h b)) tag); [discriminate|].
  destruct Ha as [<-|Ha]; auto.
Qed.

Lemma key_unique : forall (h : nat -> N * N) l a b, NoDup (map (fun x => fst (h x)) l) -> In a l -> In b l -> fst (h a) = fst (h b) -> a = b.
Proof.
  induction l as [|c r IH]; cbn; intros a b D Ha Hb E; [contradiction|].
  inversion_clear D as [|? ? N1 D1].
  destruct Ha as [<-|Ha], Hb as [<-|Hb]; auto.
  - exfalso. apply N1. rewrite E. apply (in_map (fun x => fst (h x))). exact Hb.
  - exfalso. apply N1. rewrite <- E. apply (in_map (fun x => fst (h x))). exact Ha.
Qed.

Lemma getprop_ok : forall p m tag d, props_ok p m -> getprop p tag d = match m tag with Some v => v | None => d end.
Proof.
  intros p m tag d O. unfold getprop. destruct (assq tag (cells p) (pl p)) as [a|] eqn:E.
  - destruct (assq_some _ _ _ _ E) as [Ha Hk].
    assert (M : m tag = Some (snd (cells p a))).
    { apply (proj2 (ok_map _ _ O _ _)). exists a. split; [exact Ha|]. destruct (cells p a); cbn in *; subst; reflexivity. }
    rewrite M. reflexivity.
  - destruct (m tag) as [v|] eqn:M; [|reflexivity].
    apply (proj1 (ok_map _ _ O _ _)) in M. destruct M as [a [Ha Hc]].
    exfalso. apply (assq_none _ _ _ E a Ha). rewrite Hc. reflexivity.
Qed.

Lemma upd_same : forall {A} (f : nat -> A) i x, upd f i x i = x.
Proof. intros. unfold upd. rewrite Nat.eqb_refl. reflexivity. Qed.
Lemma upd_other : forall {A} (f : nat -> A) i x j, j <> i -> upd f i x j = f j.
Proof. intros A f i x j H. unfold upd. destruct (Nat.eqb_spec j i); [contradiction|reflexivity]. Qed.

Lemma putprop_ok : forall p m tag v, props_ok p m ->
  props_ok (putprop p tag v) (fun t => if N.eqb tag t then Some v else m t).
Proof.
  intros p m tag v O. destruct O as [D F K M]. unfold putprop. destruct (assq tag (cells p) (pl p)) as [a|] eqn:E.
  - destruct (assq_some _ _ _ _ E) as [Ha Hk]. constructor; cbn [pl cells fresh]; auto.
    + replace (map (fun x => fst (upd (cells p) a (tag, v) x)) (pl p)) with (map (fun x => fst (cells p x)) (pl p)); [exact K|].
      apply map_ext. intro x. unfold upd. destruct (Nat.eqb_spec x a); subst; auto.
    + intros t w. destruct (N.eqb_spec tag t) as [->|Ne].
      * split.
        -- intro H; injection H as ->. exists a. split; [exact Ha|]. apply upd_same.
        -- intros [b [Hb Hc]]. destruct (Nat.eq_dec b a) as [->|Nb].
           ++ rewrite upd_same in Hc. injection Hc as ->. reflexivity.
           ++ rewrite (upd_other _ _ _ _ Nb) in Hc. exfalso. apply Nb. apply (key_unique (cells p) (pl p)); auto.
              rewrite Hc, Hk. reflexivity.
      * rewrite M. split; intros [b [Hb Hc]]; exists b; (split; [exact Hb|]).
        -- rewrite upd_other; [exact Hc|]. intros ->. rewrite Hc in Hk. cbn in Hk. auto.
        -- destruct (Nat.eq_dec b a) as [->|Nb]; [rewrite upd_same in Hc; injection Hc as; contradiction|].
           rewrite upd_other in Hc; auto.
  - pose proof (assq_none _ _ _ E) as Nn.
    assert (Nf : ~ In (fresh p) (pl p)).
    { intro H. rewrite Forall_forall in F. specialize (F _ H). lia. }
    assert (Eq : forall x, In x (pl p) -> upd (cells p) (fresh p) (tag, v) x = cells p x).
    { intros x Hx. apply upd_other. intros ->. contradiction. }
    constructor; cbn [pl cells fresh].
    + constructor; auto.
    + constructor; [lia|]. eapply Forall_impl; [|exact F]. cbn. intros; lia.
    + cbn [map]. rewrite upd_same. cbn [fst]. constructor.
      * intro H. apply in_map_iff in H. destruct H as [x [Hx Hi]]. rewrite (Eq x Hi) in Hx. exact (Nn x Hi Hx).
      * erewrite map_ext_in; [exact K|]. intros x Hx. cbn. rewrite (Eq x Hx). reflexivity.
    + intros t w. destruct (N.eqb_spec tag t) as [->|Ne].
      * split.
        -- intro H; injection H as ->. exists (fresh p). split; [left; reflexivity|]. apply upd_same.
        -- intros [b [[<-|Hb] Hc]].
           ++ rewrite upd_same in Hc. injection Hc as ->. reflexivity.
           ++ rewrite (Eq b Hb) in Hc. exfalso. apply (Nn b Hb). rewrite Hc. reflexivity.
      * rewrite M. split; intros [b [Hb Hc]]; exists b.
        -- split; [right; exact Hb|]. rewrite (Eq b Hb). exact Hc.
        -- destruct Hb as [<-|Hb]; [rewrite upd_same in Hc; injection Hc as; contradiction|].
           split; [exact Hb|]. rewrite <- (Eq b Hb). exact Hc.
Qed.

(** with the address occurring at most once the count limit never bites *)
Lemma delete_eq_in : forall x l c, NoDup l -> 0 < c -> forall y, In y (delete_eq x c l) <-> In y l /\ y <> x.
Proof.
  induction l as [|a r IH]; intros c D C y; cbn [delete_eq].
  - split; [intros []|intros [[] _]].
  - inversion_clear D as [|? ? Na D1]. destruct c as [|c]; [lia|].
    destruct (Nat.eqb_spec a x) as [->|Ne].
    + assert (Z : delete_eq x c r = r).
      { clear IH C y D1. revert c. induction r as [|b r IHr]; intro c; [reflexivity|]. cbn [delete_eq].
        destruct c as [|c]; [reflexivity|]. destruct (Nat.eqb_spec b x) as [->|]; [exfalso; apply Na; left; reflexivity|].
        f_equal. apply IHr. intro H. apply Na. right. exact H. }
      rewrite Z. cbn. split.
      * intro H. split; [auto|]. intros ->. contradiction.
      * intros [[<-|H] N1]; [congruence|exact H].
    + cbn. rewrite (IH (S c) D1 ltac:(lia) y). intuition congruence.
Qed.

Lemma delete_eq_sub : forall {B} (f : nat -> B) x l c, NoDup (map f l) -> NoDup (map f (delete_eq x c l)).
Proof.
  assert (S : forall x l c y, In y (delete_eq x c l) -> In y l).
  { induction l as [|a r IH]; intros c y; cbn [delete_eq]; [auto|]. destruct c; [auto|].
    destruct (Nat.eqb a x); cbn; [intro H; right; eapply IH; exact H|]. intros [<-|H]; [auto|]. right; eapply IH; exact H. }
  induction l as [|a r IH]; intros c D; cbn [delete_eq]; [exact D|]. destruct c as [|c]; [exact D|].
  cbn [map] in D. inversion_clear D as [|? ? Na D1].
  destruct (Nat.eqb a x); [apply IH; exact D1|]. cbn [map]. constructor; [|apply IH; exact D1].
  intro H. apply Na. apply in_map_iff in H. destruct H as [y [E H]]. rewrite <- E. apply in_map. eapply S; exact H.
Qed.

Lemma remprop_ok : forall p m tag, props_ok p m ->
  props_ok (remprop p tag) (fun t => if N.eqb tag t then None else m t).
Proof.
  intros p m tag O. destruct O as [D F K M]. unfold remprop. destruct (assq tag (cells p) (pl p)) as [a|] eqn:E.
  - destruct (assq_some _ _ _ _ E) as [Ha Hk].
    assert (In' : forall y, In y (delete_eq a (N.to_nat 1000000) (pl p)) <-> In y (pl p) /\ y <> a).
    { intro y. apply delete_eq_in; [exact D|]. lia. }
    revert In'. generalize (N.to_nat 1000000). intros c In'. constructor; cbn [pl cells fresh].
    + pose proof (delete_eq_sub (fun x => x) a (pl p) c) as H. rewrite !map_id in H. auto.
    + apply Forall_forall. intros y Hy. apply (proj1 (In' y)) in Hy. rewrite Forall_forall in F. apply F. tauto.
    + apply delete_eq_sub. exact K.
    + intros t w. destruct (N.eqb_spec tag t) as [->|Ne].
      * split; [discriminate|]. intros [b [Hb Hc]]. apply (proj1 (In' b)) in Hb. destruct Hb as [Hb Nb].
        exfalso. apply Nb. apply (key_unique (cells p) (pl p)); auto. rewrite Hc, Hk. reflexivity.
      * rewrite M. split; intros [b [Hb Hc]]; exists b; (split; [|exact Hc]).
        -- apply (proj2 (In' b)). split; [exact Hb|]. intros ->. rewrite Hc in Hk. cbn in Hk. auto.
        -- apply (proj1 (In' b)) in Hb. tauto.
  - constructor; auto. intros t w. destruct (N.eqb_spec tag t) as [->|Ne]; [|apply M].
    split; [discriminate|]. intros [b [Hb Hc]]. exfalso. apply (assq_none _ _ _ E b Hb). rewrite Hc. reflexivity.
Qed.

Lemma props_ext : forall p m m', (forall t, m t = m' t) -> props_ok p m -> props_ok p m'.
Proof. intros p m m' E [D F K M]. constructor; auto. intros. rewrite <- E. apply M. Qed.

Lemma prun_ok : forall os, props_ok (prun os) (fun t => last_put os t None).
Proof.
  intro os. induction os as [|o os IH] using rev_ind.
  - constructor; cbn; try constructor. intros H; discriminate. intros [a [[] _]].
  - unfold prun. rewrite fold_left_app. cbn [fold_left].
    destruct o as [t v|t]; cbn [pstep].
    + eapply props_ext; [|apply putprop_ok; exact IH]. intro x. rewrite last_put_app. reflexivity.
    + eapply props_ext; [|apply remprop_ok; exact IH]. intro x. rewrite last_put_app. reflexivity.
Qed.

Lemma plist_map : forall os tag d, getprop (prun os) tag d = match last_put os tag None with Some v => v | None => d end.
Proof. intros. exact (getprop_ok _ _ tag d (prun_ok os)). Qed.

(** * C30 *)
(** What the history of a program says about classes and methods, without any cache. *)
Fixpoint supers (os : list mop) : list (option nat) :=
  match os with [] => [] | MClass s :: r => s :: supers r | _ :: r => supers r end.
Fixpoint last_def (os : list mop) (c : nat) (sel : N) (acc : option nat) : option nat :=
  match os with
  | [] => acc
  | MDef c' s m :: r => last_def r c sel (if Nat.eqb c' c && N.eqb s sel then Some m else acc)
  | MDelete _ c' s :: r => last_def r c sel (if Nat.eqb c' c && N.eqb s sel then None else acc)
  | _ :: r => last_def r c sel acc
  end.
Fixpoint threads (os : list mop) : nat := match os with [] => 1 | MThread :: r => S (threads r) | _ :: r => threads r end.

(** nearest class upwards from [c] that has a method for [sel] *)
Inductive resolves (os : list mop) (sel : N) : nat -> nat * nat -> Prop :=
| here : forall c m, last_def os c sel None = Some m -> resolves os sel c (c, m)
| inherited : forall c s r, last_def os c sel None = None -> nth_error (supers os) c = Some (Some s) ->
    resolves os sel s r -> resolves os sel c r.

(** operations name existing classes and threads *)
Definition legal (os : list mop) (o : mop) : Prop :=
  match o with
  | MClass (Some s) => s < length (supers os)
  | MClass None => True
  | MDef c _ _ => c < length (supers os)
  | MSend t c _ => t < threads os /\ c < length (supers os)
  | MDelete t c _ => t < threads os /\ c < length (supers os)
  | MCache t _ => t < threads os
  | MThread => True
  end.
Inductive program : list mop -> Prop :=
| p_nil : program []
| p_snoc : forall os o, program os -> legal os o -> program (os ++ [o]).

Definition deletes (o : mop) : Prop := match o with MDelete _ _ _ => True | _ => False end.
Definition starts_thread (o : mop) : Prop := match o with MThread => True | _ => False end.

Lemma supers_app : forall a b, supers (a ++ b) = supers a ++ supers b.
Proof. induction a as [|[] a IH]; intros; cbn; rewrite ?IH; reflexivity. Qed.
Lemma last_def_app : forall a b c sel acc, last_def (a ++ b) c sel acc = last_def b c sel (last_def a c sel acc).
Proof. induction a as [|[] a IH]; intros; cbn; rewrite ?IH; reflexivity. Qed.
Lemma threads_pos : forall a, 1 <= threads a.
Proof. induction a as [|[] a IH]; cbn; lia. Qed.
Lemma threads_app : forall a b, threads (a ++ b) = pred (threads a) + threads b.
Proof.
  induction a as [|o a IH]; intro b; [reflexivity|]. pose proof (threads_pos a). destruct o; cbn; rewrite IH; lia.
Qed.

Record minv (caddr : nat -> N) (nilsym : N) (os : list mop) (w : world) : Prop := {
  i_n : w_n w = length (supers os);
  i_super : forall c, c < w_n w -> nth_error (supers os) c = Some (w_super w c);
  i_below : forall c s, nth_error (supers os) c = Some (Some s) -> s < c;
  i_meths : forall c sel, c < w_n w -> in_class sel (w_meths w c) = last_def os c sel None;
  i_none : forall c sel, w_n w <= c -> last_def os c sel None = None;
  i_threads : length (w_cache w) = threads os;
  i_cache : forall t i s c, t < length (w_cache w) -> e_sel (cache_of w t i) = Some s -> s <> nilsym ->
     e_class (cache_of w t i) = Some c -> c < w_n w /\ resolves os s c (e_owner (cache_of w t i), e_meth (cache_of w t i)) }.

Lemma search_resolves : forall caddr nilsym os w sel, minv caddr nilsym os w -> forall f c r, c < w_n w -> c < f ->
  (search f w sel c = Some r <-> resolves os sel c r).
Proof.
  intros caddr nilsym os w sel I. induction f as [|f IH]; intros c r Hc Hf; [lia|]. cbn [search].
  rewrite (i_meths _ _ _ _ I c sel Hc). destruct (last_def os c sel None) as [m|] eqn:E.
  - split; intro H; [injection H as <-; constructor; exact E|]. inversion H; subst; congruence.
  - pose proof (i_super _ _ _ _ I c Hc) as S. destruct (w_super w c) as [s|] eqn:Es.
    + pose proof (i_below _ _ _ _ I _ _ S) as B. rewrite IH by lia. split; intro H.
      * eapply inherited; eauto.
      * inversion H; subst; [congruence|]. rewrite S in *. match goal with H : Some _ = Some _ |- _ => injection H as <- end. assumption.
    + split; intro H; [discriminate|]. inversion H; subst; congruence.
Qed.

Lemma resolves_mono : forall os os' sel,
  (forall c, last_def os' c sel None = last_def os c sel None) ->
  (forall c s, nth_error (supers os) c = Some s -> nth_error (supers os') c = Some s) ->
  forall c r, resolves os sel c r -> resolves os' sel c r.
Proof.
  intros os os' sel L S c r H. induction H.
  - constructor. rewrite L. assumption.
  - eapply inherited; [rewrite L; assumption| |eassumption]. apply S. assumption.
Qed.

Lemma resolves_same : forall os o sel, ~ deletes o -> (forall c m, o <> MDef c sel m) ->
  forall c r, resolves os sel c r -> resolves (os ++ [o]) sel c r.
Proof.
  intros os o sel Nd Nm. apply resolves_mono.
  - intro c. rewrite last_def_app. destruct o; cbn in *; try reflexivity; try tauto.
    destruct (N.eqb_spec sel0 sel) as [->|]; [exfalso; eapply Nm; reflexivity|]. rewrite andb_false_r. reflexivity.
  - intros c s H. rewrite supers_app. rewrite nth_error_app1; [exact H|]. apply nth_error_Some. congruence.
Qed.

Lemma in_class_put : forall sel m l s, in_class s (put_method sel m l) = if N.eqb sel s then Some m else in_class s l.
Proof.
  induction l as [|[k v] r IH]; intro s; cbn [put_method in_class].
  - reflexivity.
  - cbn [fst]. destruct (N.eqb_spec k sel) as [->|Ne]; cbn [in_class].
    + destruct (N.eqb_spec sel s); reflexivity.
    + rewrite IH. destruct (N.eqb_spec k s), (N.eqb_spec sel s); congruence.
Qed.
Lemma in_class_del : forall sel l s, in_class s (filter (fun p => negb (N.eqb (fst p) sel)) l) = if N.eqb sel s then None else in_class s l.
Proof.
  induction l as [|[k v] r IH]; intro s; cbn [filter in_class].
  - destruct (N.eqb sel s); reflexivity.
  - cbn [fst]. destruct (N.eqb_spec k sel) as [->|Ne]; cbn [negb in_class]; rewrite IH.
    + destruct (N.eqb_spec sel s); reflexivity.
    + destruct (N.eqb_spec k s), (N.eqb_spec sel s); congruence.
Qed.

Lemma put_length : forall {A} i (x : A) l, length (put i x l) = length l.
Proof. induction i; destruct l; cbn; auto. Qed.
Lemma put_nth_same : forall {A} i (x d : A) l, i < length l -> nth i (put i x l) d = x.
Proof. induction i; destruct l; cbn; intros; try lia; auto. apply IHi. lia. Qed.
Lemma put_nth_other : forall {A} i j (x d : A) l, j <> i -> nth j (put i x l) d = nth j l d.
Proof. induction i; destruct l, j; cbn; intros; try congruence; auto. Qed.

Lemma sel_is_true : forall e s, sel_is e s = true <-> e_sel e = Some s.
Proof. intros e s. unfold sel_is. destruct (e_sel e) as [k|]; [|split; discriminate]. rewrite N.eqb_eq. split; congruence. Qed.
Lemma class_is_true : forall e c, class_is e c = true <-> e_class e = Some c.
Proof. intros e s. unfold class_is. destruct (e_class e) as [k|]; [|split; discriminate]. rewrite Nat.eqb_eq. split; congruence. Qed.

(** hypotheses under which a step keeps the invariant: a deletion only while there is a single thread *)
Definition safe_step (os : list mop) (o : mop) : Prop := deletes o -> threads os = 1.

Lemma minv_step : forall caddr nilsym os w o, minv caddr nilsym os w -> legal os o -> safe_step os o ->
  minv caddr nilsym (os ++ [o]) (mstep caddr nilsym w o).
Proof.
  intros caddr nilsym os w o I L D.
  assert (Cm : ~ deletes o -> (forall s, (forall c m, o <> MDef c s m) -> forall c r, resolves os s c r -> resolves (os ++ [o]) s c r)).
  { intros Nd s Ns c r. apply resolves_same; auto. }
  destruct o as [sup|c sel m|t c sel|t c sel|t on|]; cbn [mstep legal] in *.
  - (* defclass *)
    pose proof (i_n _ _ _ _ I) as En.
    assert (Ls : length (supers (os ++ [MClass sup])) = S (length (supers os))) by (rewrite supers_app, app_length; cbn; lia).
    constructor; unfold defclass; cbn [w_n w_super w_meths w_cache]; rewrite ?last_def_app, ?threads_app.
    + lia.
    + intros c Hc. rewrite supers_app. unfold upd. destruct (Nat.eqb_spec c (w_n w)) as [->|Ne].
      * rewrite nth_error_app2 by lia. rewrite En, Nat.sub_diag. reflexivity.
      * rewrite nth_error_app1 by lia. apply (i_super _ _ _ _ I). lia.
    + intros c s H. rewrite supers_app in H. destruct (Nat.lt_ge_cases c (length (supers os))) as [Lt|Ge].
      * rewrite nth_error_app1 in H by exact Lt. eapply i_below; eauto.
      * rewrite nth_error_app2 in H by exact Ge. destruct (c - length (supers os)) as [|k] eqn:Ek; [|destruct k; discriminate H].
        cbn in H. injection H as ->. lia.
    + intros c sel Hc. rewrite last_def_app. cbn [last_def]. unfold upd. destruct (Nat.eqb_spec c (w_n w)) as [->|Ne].
      * rewrite (i_none _ _ _ _ I) by lia. reflexivity.
      * apply (i_meths _ _ _ _ I). lia.
    + intros c sel Hc. rewrite last_def_app. cbn [last_def]. apply (i_none _ _ _ _ I). lia.
    + cbn. rewrite (i_threads _ _ _ _ I). pose proof (threads_pos os). lia.
    + intros t i s c Ht Hs Hn Hc. destruct (i_cache _ _ _ _ I t i s c Ht Hs Hn Hc) as [A B]. split; [lia|]. apply Cm; cbn; auto. discriminate.
  - (* defmethod *)
    pose proof (i_n _ _ _ _ I) as En.
    assert (Es : supers (os ++ [MDef c sel m]) = supers os) by (rewrite supers_app; cbn; apply app_nil_r).
    constructor; unfold addmethod; cbn [w_n w_super w_meths w_cache]; rewrite ?Es.
    + exact En.
    + apply (i_super _ _ _ _ I).
    + apply (i_below _ _ _ _ I).
    + intros c0 s0 Hc. rewrite last_def_app. cbn [last_def]. unfold upd. rewrite (Nat.eqb_sym c c0). destruct (Nat.eqb_spec c0 c) as [->|Ne].
      * rewrite in_class_put. cbn [andb]. destruct (N.eqb sel s0); [reflexivity|]. apply (i_meths _ _ _ _ I). exact Hc.
      * cbn [andb]. apply (i_meths _ _ _ _ I). exact Hc.
    + intros c0 s0 Hc. rewrite last_def_app. cbn [last_def]. destruct (Nat.eqb_spec c c0) as [->|Ne]; [lia|]. cbn [andb]. apply (i_none _ _ _ _ I). exact Hc.
    + rewrite map_length, threads_app, (i_threads _ _ _ _ I). cbn.
      pose proof (threads_pos os). lia.
    + intros t i s c0 Ht. rewrite map_length in Ht. unfold cache_of. cbn [w_cache].
      rewrite (nth_indep _ _ (purge nilsym sel (fun _ => null_entry))) by (rewrite map_length; exact Ht).
      rewrite map_nth. change (nth t (w_cache w) (fun _ => null_entry)) with (cache_of w t). unfold purge.
      destruct (sel_is (cache_of w t i) sel) eqn:Ei; cbn [e_sel e_class e_owner e_meth].
      * intros Hs Hn. injection Hs as ->. contradiction.
      * intros Hs Hn Hc. destruct (i_cache _ _ _ _ I t i s c0 Ht Hs Hn Hc) as [A B]. split; [exact A|]. apply Cm; cbn; auto.
        intros c1 m1 Eq. injection Eq as -> -> ->. pose proof (proj2 (sel_is_true _ _) Hs). congruence.
  - (* send *)
    destruct L as [Lt Lc].
    assert (Es : supers (os ++ [MSend t c sel]) = supers os) by (rewrite supers_app; cbn; apply app_nil_r).
    assert (Keep : minv caddr nilsym (os ++ [MSend t c sel]) w).
    { destruct I as [i1 i2 i3 i4 i5 i6 i7]. constructor; rewrite ?Es; auto.
      - intros. rewrite last_def_app. cbn [last_def]. auto.
      - intros. rewrite last_def_app. cbn [last_def]. auto.
      - rewrite threads_app, i6. cbn. pose proof (threads_pos os). lia.
      - intros t0 i s c0 Ht Hs Hn Hc. destruct (i7 t0 i s c0 Ht Hs Hn Hc) as [A B]. split; [exact A|]. apply Cm; cbn; auto. discriminate. }
    unfold findmethod. destruct (probe caddr w t sel c); cbn [fst]; [exact Keep|].
    unfold store. destruct (search (S (w_n w)) w sel c) as [[o1 m1]|] eqn:Se; [|exact Keep].
    destruct (w_try w); [|exact Keep].
    assert (Lc' : c < w_n w) by (rewrite (i_n _ _ _ _ I); exact Lc).
    apply (proj1 (search_resolves _ _ _ _ sel Keep (S (w_n w)) c (o1, m1) Lc' ltac:(lia))) in Se.
    destruct Keep as [i1 i2 i3 i4 i5 i6 i7]. constructor; cbn [w_n w_super w_meths w_cache]; auto.
    + rewrite put_length. exact i6.
    + intros t0 i s c0 Ht. rewrite put_length in Ht. unfold cache_of. cbn [w_cache]. destruct (Nat.eq_dec t0 t) as [->|Nt].
      * rewrite put_nth_same by exact Ht. fold (cache_of w t). unfold upd. destruct (Nat.eqb_spec i (slot_of caddr sel c)) as [->|Ni]; cbn [e_sel e_class e_owner e_meth].
        -- intros Hs Hn Hc. injection Hs as <-. injection Hc as <-. split; assumption.
        -- apply i7. exact Ht.
      * rewrite put_nth_other by exact Nt. fold (cache_of w t0). apply i7. exact Ht.
  - (* delete-method *)
    destruct L as [Lt Lc]. specialize (D Logic.I).
    assert (Es : supers (os ++ [MDelete t c sel]) = supers os) by (rewrite supers_app; cbn; apply app_nil_r).
    unfold delete_method, methcache. destruct I as [i1 i2 i3 i4 i5 i6 i7]. constructor; cbn [w_n w_super w_meths w_cache]; rewrite ?Es; auto.
    + intros c0 s0 Hc. rewrite last_def_app. cbn [last_def]. unfold upd. rewrite (Nat.eqb_sym c c0). destruct (Nat.eqb_spec c0 c) as [->|Ne].
      * rewrite in_class_del. cbn [andb]. destruct (N.eqb sel s0); auto.
      * cbn [andb]. auto.
    + intros c0 s0 Hc. rewrite last_def_app. cbn [last_def]. destruct (Nat.eqb_spec c c0) as [->|Ne]; [lia|]. cbn [andb]. auto.
    + rewrite put_length, threads_app, i6, D. reflexivity.
    + intros t0 i s c0 Ht. rewrite put_length in Ht. assert (t0 = t) by lia. subst t0. unfold cache_of. cbn [w_cache].
      rewrite put_nth_same by exact Ht. cbn [e_sel e_class]. discriminate.
  - (* method-cache *)
    assert (Es : supers (os ++ [MCache t on]) = supers os) by (rewrite supers_app; cbn; apply app_nil_r).
    unfold methcache. destruct I as [i1 i2 i3 i4 i5 i6 i7]. constructor; cbn [w_n w_super w_meths w_cache]; rewrite ?Es; auto.
    + intros. rewrite last_def_app. cbn [last_def]. auto.
    + intros. rewrite last_def_app. cbn [last_def]. auto.
    + rewrite put_length, threads_app, i6. cbn. pose proof (threads_pos os). lia.
    + intros t0 i s c0 Ht. rewrite put_length in Ht. unfold cache_of. cbn [w_cache]. destruct (Nat.eq_dec t0 t) as [->|Nt].
      * rewrite put_nth_same by exact Ht. cbn [e_sel e_class]. discriminate.
      * rewrite put_nth_other by exact Nt. fold (cache_of w t0). intros Hs Hn Hc.
        destruct (i7 t0 i s c0 Ht Hs Hn Hc) as [A B]. split; [exact A|]. apply Cm; cbn; auto. discriminate.
  - (* new thread *)
    assert (Es : supers (os ++ [MThread]) = supers os) by (rewrite supers_app; cbn; apply app_nil_r).
    unfold new_thread. destruct I as [i1 i2 i3 i4 i5 i6 i7]. constructor; cbn [w_n w_super w_meths w_cache]; rewrite ?Es; auto.
    + intros. rewrite last_def_app. cbn [last_def]. auto.
    + intros. rewrite last_def_app. cbn [last_def]. auto.
    + rewrite app_length, threads_app, i6. cbn. pose proof (threads_pos os). lia.
    + intros t0 i s c0 Ht. rewrite app_length in Ht. cbn in Ht. unfold cache_of. cbn [w_cache].
      destruct (Nat.lt_ge_cases t0 (length (w_cache w))) as [Lt|Ge].
      * rewrite app_nth1 by exact Lt. fold (cache_of w t0). intros Hs Hn Hc.
        destruct (i7 t0 i s c0 Lt Hs Hn Hc) as [A B]. split; [exact A|]. apply Cm; cbn; auto. discriminate.
      * rewrite app_nth2 by exact Ge. replace (t0 - length (w_cache w)) with 0 by lia. cbn. discriminate.
Qed.

(** a program that deletes methods only while it has one thread *)
Definition deletes_alone (os : list mop) : Prop := forall a t c sel b, os = a ++ MDelete t c sel :: b -> threads a = 1.

Lemma mrun_inv : forall caddr nilsym os, program os -> deletes_alone os -> minv caddr nilsym os (mrun caddr nilsym os).
Proof.
  intros caddr nilsym os P. induction P as [|os o P IH L]; intro D.
  - constructor; cbn; auto; try lia.
    + intros c s H. destruct c; discriminate.
    + intros t i s c Ht. destruct t; [|lia]. cbn. discriminate.
  - unfold mrun. rewrite fold_left_app. cbn [fold_left]. apply minv_step; auto.
    + apply IH. intros a t c sel b E. apply (D a t c sel (b ++ [o])). rewrite E, <- app_assoc. reflexivity.
    + intro Do. destruct o; try contradiction. eapply D. reflexivity.
Qed.

Lemma send_resolves : forall caddr nilsym os t c sel r, program (os ++ [MSend t c sel]) -> deletes_alone os -> sel <> nilsym ->
  (snd (findmethod caddr (mrun caddr nilsym os) t sel c) = Some r <-> resolves os sel c r).
Proof.
  intros caddr nilsym os t c sel r P D Ns.
  inversion P as [E|os' o P' L E]; [destruct os; discriminate|]. apply app_inj_tail in E. destruct E as [-> ->].
  cbn in L. destruct L as [Lt Lc]. pose proof (mrun_inv caddr nilsym os P' D) as I. set (w := mrun caddr nilsym os) in *.
  assert (Lc' : c < w_n w) by (rewrite (i_n _ _ _ _ I); exact Lc).
  assert (S : forall r, search (S (w_n w)) w sel c = Some r <-> resolves os sel c r).
  { intro r0. apply (search_resolves _ _ _ _ sel I); lia. }
  unfold findmethod. destruct (probe caddr w t sel c) as [r0|] eqn:Pr; cbn [snd]; [|apply S].
  unfold probe in Pr. destruct (w_try w); [|discriminate].
  destruct (sel_is _ sel && class_is _ c) eqn:B in Pr; [|discriminate].
  apply andb_true_iff in B. destruct B as [B1 B2]. rewrite sel_is_true in B1. rewrite class_is_true in B2.
  injection Pr as <-. rewrite <- S.
  destruct (i_cache _ _ _ _ I t _ sel c ltac:(rewrite (i_threads _ _ _ _ I); exact Lt) B1 Ns B2) as [_ R].
  apply (proj2 (S _)) in R. rewrite R. split; congruence.
Qed.
