(** copyunmark undoes what copyobj did to the original, and copy-object is correct. *)
From Verif Require Export CopyProofs.

Section Unmark.
  Variables (C : classes) (limit : nat) (h0 : nat -> obj) (n0 : nat) (w0 : word).
  Hypothesis OK : copyable C h0 n0 w0.
  Variables (s0 : state) (vs : list nat).
  Hypothesis I0 : inv0 C h0 n0 w0 s0 vs.

  (** [U] lists the objects already restored *)
  Record uinv (st : state) (U : list nat) : Prop := {
    u_cpv : cpv st = cpv s0;
    u_next : next st = next s0;
    u_nd : NoDup U;
    u_sub : forall a, In a U -> In a vs;
    u_pm : forall a, pm st a = true <-> In a vs /\ ~ In a U;
    u_hdr : forall a, a < n0 -> same_hdr (heap st a) (h0 a);
    u_oth : forall a i, a < n0 -> i <> fpos (etype (h0 a)) -> iv (heap st a) i = iv (h0 a) i;
    u_un : forall a i, a < n0 -> ~ In a vs \/ In a U -> iv (heap st a) i = iv (h0 a) i;
    u_fwd : forall j v, nth_error vs j = Some v -> ~ In v U ->
            iv (heap st v) (fpos (etype (h0 v))) = WNum (Z.of_nat (2 * j));
    u_new : forall a, n0 <= a -> heap st a = heap s0 a }.

  Definition restored (U : list nat) (w : word) : Prop := forall b, w = WPtr b -> In b vs -> In b U.

  Definition ugood (U : list nat) (w : word) (r : ures) : Prop :=
    match r with
    | UDone st' => exists new, uinv st' (new ++ U) /\ restored (new ++ U) w /\
        (forall u i, In u new -> i < nptrs C (h0 u) -> restored (new ++ U) (iv (h0 u) i))
    | _ => False
    end.

  Lemma restored_app new U w : restored U w -> restored (new ++ U) w.
  Proof. intros R b E Hb. apply in_or_app; right; exact (R b E Hb). Qed.

  Lemma unmark_slots_ok um (B : nat)
    (UM : forall st U w, uinv st U -> src C h0 w0 vs w -> B <= length U -> ugood U w (um st w)) :
    forall n st U a i, uinv st U -> In a U -> B <= length U -> i + n <= nptrs C (h0 a) ->
      match unmark_slots um st a i n with
      | UDone st' => exists new, uinv st' (new ++ U) /\
          (forall m, i <= m < i + n -> restored (new ++ U) (iv (h0 a) m)) /\
          (forall u i, In u new -> i < nptrs C (h0 u) -> restored (new ++ U) (iv (h0 u) i))
      | _ => False
      end.
  Proof.
    induction n as [|n IH]; intros st U a i I Ha HB Hn; cbn [unmark_slots].
    - exists []. split; [exact I|]. split; [intros m Hm; lia|]. intros u j [].
    - assert (Va := u_sub _ _ I a Ha). destruct (i_vs _ _ _ _ _ _ I0 a Va) as [La _].
      rewrite (u_un _ _ I a i La) by auto.
      assert (S0 : src C h0 w0 vs (iv (h0 a) i)).
      { right; exists a, i; repeat split; auto; lia. }
      specialize (UM st U _ I S0 HB). destruct (um st (iv (h0 a) i)) as [st1| |]; cbn [ugood] in UM; auto.
      destruct UM as (new & I1 & R1 & K1).
      assert (Ha1 : In a (new ++ U)) by (apply in_or_app; auto).
      assert (HB1 : B <= length (new ++ U)) by (rewrite app_length; lia).
      specialize (IH st1 (new ++ U) a (S i) I1 Ha1 HB1 ltac:(lia)).
      destruct (unmark_slots um st1 a (S i) n) as [st2| |]; auto.
      destruct IH as (new2 & I2 & R2 & K2). exists (new2 ++ new). rewrite <- app_assoc.
      split; [exact I2|]. split.
      + intros m Hm. destruct (Nat.eq_dec m i) as [->|N]; [apply restored_app; exact R1|apply R2; lia].
      + intros u j Hu Hj. apply in_app_or in Hu. destruct Hu as [Hu|Hu].
        * apply K2; auto.
        * apply restored_app. apply K1; auto.
  Qed.

  Lemma u_bound st U : uinv st U -> length U <= length vs.
  Proof. intros I. apply NoDup_incl_length; [exact (u_nd _ _ I)|exact (u_sub _ _ I)]. Qed.

  Lemma copyunmark_ok : forall f st U w, uinv st U -> src C h0 w0 vs w -> length vs + 1 <= f + length U ->
    ugood U w (copyunmark f C st w).
  Proof.
    induction f as [|f IH]; intros st U w I Sr F.
    - pose proof (u_bound _ _ I); lia.
    - assert (V := src_valid C h0 n0 w0 OK vs w (i_vs _ _ _ _ _ _ I0) Sr).
      assert (NOTHING : restored U w -> ugood U w (UDone st)).
      { intros R. exists []. split; [exact I|]. split; [exact R|]. intros u i []. }
      cbn [copyunmark]. destruct w as [z|a|]; [apply NOTHING; intros b E; discriminate| |contradiction].
      cbn [valid] in V. destruct (u_hdr _ _ I a V) as (E1 & E2 & E3). rewrite E1.
      change (is_leaf C (cix (h0 a))) with (leaf C h0 a).
      destruct (leaf C h0 a) eqn:L.
      { apply NOTHING. intros b E Hb. injection E as <-. destruct (i_vs _ _ _ _ _ _ I0 a Hb) as [_ R].
        rewrite (reach_nonleaf _ _ _ _ R) in L. discriminate. }
      destruct (pm st a) eqn:P.
      2: { apply NOTHING. intros b E Hb. injection E as <-.
           destruct (in_dec Nat.eq_dec a U) as [Hu|Hu]; [exact Hu|].
           assert (pm st a = true) by (apply (u_pm _ _ I); auto). congruence. }
      apply (u_pm _ _ I) in P. destruct P as [Va NU].
      destruct (In_nth_error _ _ Va) as [j Hj].
      rewrite E2, (u_fwd _ _ I j a Hj NU), Nat2Z.id, (u_cpv _ _ I).
      rewrite (proj2 (i_cpv _ _ _ _ _ _ I0 j a Hj)).
      set (x := iv (h0 a) (fpos (etype (h0 a)))).
      set (st1 := set_mark (put st a (fpos (etype (h0 a))) x) a false).
      assert (I1 : uinv st1 (a :: U)).
      { unfold st1, set_mark, put; constructor; cbn [cpv next pm heap].
        - exact (u_cpv _ _ I).
        - exact (u_next _ _ I).
        - constructor; [exact NU|exact (u_nd _ _ I)].
        - intros b [<-|Hb]; [exact Va|exact (u_sub _ _ I b Hb)].
        - intros b. unfold upd. destruct (Nat.eqb_spec b a) as [->|Nb].
          + split; [discriminate|]. intros [_ H]. elim H; left; reflexivity.
          + rewrite (u_pm _ _ I b). cbn [In]. intuition congruence.
        - intros b Lb. unfold upd. destruct (Nat.eqb_spec b a) as [->|Nb]; [|exact (u_hdr _ _ I b Lb)].
          unfold same_hdr, set_iv; cbn [cix etype vsize]; auto.
        - intros b i Lb Hi. unfold upd at 1. destruct (Nat.eqb_spec b a) as [->|Nb]; [|exact (u_oth _ _ I b i Lb Hi)].
          unfold set_iv; cbn [iv]. rewrite upd_other by exact Hi. exact (u_oth _ _ I a i Lb Hi).
        - intros b i Lb Hb. unfold upd at 1. destruct (Nat.eqb_spec b a) as [->|Nb].
          + unfold set_iv; cbn [iv]. destruct (Nat.eq_dec i (fpos (etype (h0 a)))) as [->|Ni].
            * rewrite upd_same. reflexivity.
            * rewrite upd_other by exact Ni. exact (u_oth _ _ I a i Lb Ni).
          + apply (u_un _ _ I); auto. destruct Hb as [Hb|[Hb|Hb]]; auto.
        - intros k v Hv Hn. unfold upd at 1. destruct (Nat.eqb_spec v a) as [->|Nb].
          + elim Hn; left; reflexivity.
          + apply (u_fwd _ _ I); auto. intros H; apply Hn; right; exact H.
        - intros b Lb. unfold upd. destruct (Nat.eqb_spec b a) as [->|Nb]; [lia|exact (u_new _ _ I b Lb)]. }
      assert (UM : forall st U' w, uinv st U' -> src C h0 w0 vs w -> S (length U) <= length U' ->
                     ugood U' w (copyunmark f C st w)).
      { intros st' U' w' I' S' L'. apply IH; auto. lia. }
      assert (LOOP : match unmark_slots (copyunmark f C) st1 a 0 (nptrs C (h0 a)) with
                     | UDone st' => ugood U (WPtr a) (UDone st') | _ => False end).
      { assert (G := unmark_slots_ok (copyunmark f C) (S (length U)) UM (nptrs C (h0 a)) st1 (a :: U) a 0 I1
                       (or_introl eq_refl) (le_n _) (le_n _)).
        destruct (unmark_slots (copyunmark f C) st1 a 0 (nptrs C (h0 a))) as [st2| |]; auto.
        destruct G as (new & I2 & R2 & K2). exists (new ++ [a]). rewrite <- app_assoc.
        change ([a] ++ U) with (a :: U). split; [exact I2|]. split.
        - intros b E Hb. injection E as <-. apply in_or_app; right; left; reflexivity.
        - intros u i Hu Hi. apply in_app_or in Hu. destruct Hu as [Hu|[<-|[]]]; [apply K2; auto|apply R2; lia]. }
      unfold nptrs in LOOP. rewrite E3.
      assert (SIMPLE : nptrs C (h0 a) = 0 -> ugood U (WPtr a) (UDone st1)).
      { intros Z. exists [a]. split; [exact I1|]. split.
        - intros b E Hb. injection E as <-. left; reflexivity.
        - intros u i [<-|[]] Hi. lia. }
      unfold nptrs in SIMPLE.
      destruct (etype (h0 a)); auto.
  Qed.

  Lemma uinv_start : uinv s0 [].
  Proof.
    constructor; auto.
    - constructor.
    - intros a [].
    - intros a. rewrite (i_pm _ _ _ _ _ _ I0 a). intuition.
    - exact (i_hdr _ _ _ _ _ _ I0).
    - exact (i_oth _ _ _ _ _ _ I0).
    - intros a i La [H|[]]. exact (i_un _ _ _ _ _ _ I0 a i La H).
    - intros j v Hv _. exact (i_fwd _ _ _ _ _ _ I0 j v Hv).
  Qed.

  (** after copyunmark from the root everything is as before *)
  Lemma unmark_all f : length vs + 1 <= f ->
    exists st', copyunmark f C s0 w0 = UDone st' /\ (forall a, pm st' a = false) /\ next st' = next s0 /\
      (forall a, a < n0 -> same_hdr (heap st' a) (h0 a) /\ forall i, iv (heap st' a) i = iv (h0 a) i) /\
      (forall a, n0 <= a -> heap st' a = heap s0 a).
  Proof.
    intros F. assert (G := copyunmark_ok f s0 [] w0 uinv_start (or_introl eq_refl) ltac:(cbn [length]; lia)).
    destruct (copyunmark f C s0 w0) as [st'| |]; cbn [ugood] in G; try contradiction.
    destruct G as (U & I & R & K). rewrite app_nil_r in *.
    assert (ALL : forall j v, nth_error vs j = Some v -> In v U).
    { intros j. induction j as [j IHj] using lt_wf_ind. intros v Hv.
      destruct (i_tree _ _ _ _ _ _ I0 j v Hv) as [T|(k & u & i & Lk & Hu & Hi & T)].
      - apply (R v T). exact (nth_error_In _ _ Hv).
      - exact (K u i (IHj k Lk u Hu) Hi v T (nth_error_In _ _ Hv)). }
    exists st'. split; [reflexivity|]. split; [|split; [exact (u_next _ _ I)|split]].
    - intros a. destruct (pm st' a) eqn:P; auto. apply (u_pm _ _ I) in P. destruct P as [P NP].
      elim NP. destruct (In_nth_error _ _ P) as [j Hj]. exact (ALL j a Hj).
    - intros a La. split; [exact (u_hdr _ _ I a La)|]. intros i. apply (u_un _ _ I); auto.
      destruct (in_dec Nat.eq_dec a vs) as [H|H]; auto. right.
      destruct (In_nth_error _ _ H) as [j Hj]. exact (ALL j a Hj).
    - exact (u_new _ _ I).
  Qed.
End Unmark.

Lemma inv_start C h n w : inv C h n w (mkSt h (fun _ => false) n []) [].
Proof.
  split; [constructor|]; cbn [cpv pm heap next length]; auto.
  1,6,7,8: intros [|j] v H; discriminate H.
  - constructor.
  - intros v [].
  - intros a; split; [discriminate|intros []].
  - intros a _; repeat split.
Qed.

(** the copy relation: a renaming [f] of the copied objects to fresh addresses *)
Definition rename (C : classes) (h : nat -> obj) (f : nat -> nat) (w : word) : word :=
  match w with WPtr a => if leaf C h a then w else WPtr (f a) | _ => w end.

(** the words of an object that carry its slots or elements: 64 bits, or 8 bytes, to a word; a byte vector is followed
    by a zero byte *)
Definition carries (C : classes) (o : obj) (i : nat) : Prop :=
  match etype o with
  | FIXED => i < objsize C (cix o)
  | BIT => exists j, j < vsize o /\ i = j / 64
  | CHAR | BYTE => exists j, j <= vsize o /\ i = j / 8
  | INT | FLOAT | POINTER => i < vsize o
  end.
Lemma carries_nwords C o i : carries C o i -> i < nwords C o.
Proof.
  unfold carries, nwords. destruct (etype o); auto; intros (j & Hj & ->).
  - apply Nat.div_lt_upper_bound; [lia|]. pose proof (Nat.div_mod (vsize o + 63) 64 ltac:(lia)).
    pose proof (Nat.mod_upper_bound (vsize o + 63) 64 ltac:(lia)). lia.
  - apply Nat.div_lt_upper_bound; [lia|]. pose proof (Nat.div_mod (vsize o + 8) 8 ltac:(lia)).
    pose proof (Nat.mod_upper_bound (vsize o + 8) 8 ltac:(lia)). lia.
  - apply Nat.div_lt_upper_bound; [lia|]. pose proof (Nat.div_mod (vsize o + 8) 8 ltac:(lia)).
    pose proof (Nat.mod_upper_bound (vsize o + 8) 8 ltac:(lia)). lia.
Qed.

Definition copy_of (C : classes) (h : nat -> obj) (w : word) (n : nat) (h' : nat -> obj) (n' : nat) (f : nat -> nat) : Prop :=
  (forall a, reach C h w a -> n <= f a < n') /\
  (forall a b, reach C h w a -> reach C h w b -> f a = f b -> a = b) /\
  (forall a, reach C h w a -> same_hdr (h' (f a)) (h a) /\
     forall i, carries C (h a) i ->
       iv (h' (f a)) i = if i <? nptrs C (h a) then rename C h f (iv (h a) i) else iv (h a) i).

Definition unchanged (n : nat) (h h' : nat -> obj) : Prop :=
  forall a, a < n -> same_hdr (h' a) (h a) /\ forall i, iv (h' a) i = iv (h a) i.

Fixpoint index_of (a : nat) (l : list nat) : nat :=
  match l with [] => 0 | x :: r => if x =? a then 0 else S (index_of a r) end.
Lemma index_of_ok a l : In a l -> nth_error l (index_of a l) = Some a.
Proof.
  induction l as [|x r IH]; intros [].
  - subst x. cbn [index_of]. rewrite Nat.eqb_refl. reflexivity.
  - cbn [index_of]. destruct (Nat.eqb_spec x a) as [->|N]; [reflexivity|]. cbn [nth_error]. auto.
Qed.
Lemma index_of_nth l j a : NoDup l -> nth_error l j = Some a -> index_of a l = j.
Proof.
  intros ND H. assert (Hi := index_of_ok a l (nth_error_In _ _ H)).
  rewrite NoDup_nth_error in ND. apply ND; [exact (nth_error_lt _ _ _ Hi)|congruence].
Qed.

Theorem COPYOBJ_ok C limit h n w fuel : copyable C h n w -> n + 1 <= fuel ->
  match COPYOBJ fuel C limit h n w with
  | CVal st w' => unchanged n h (heap st) /\ (forall a, pm st a = false) /\ n <= next st /\
      exists f, copy_of C h w n (heap st) (next st) f /\ w' = rename C h f w
  | CError st => unchanged n h (heap st) /\ (forall a, pm st a = false) /\ limit < 2 * n
  | _ => False
  end.
Proof.
  intros OK F. unfold COPYOBJ.
  assert (G := copyobj_ok C limit h n w OK fuel _ [] w (inv_start C h n w) (or_introl eq_refl)
                 ltac:(cbn [length]; lia)).
  destruct (copyobj fuel C limit (mkSt h (fun _ => false) n []) w) as [st b|st| |]; cbn [good app] in G; auto.
  - destruct G as (vs & [I N] & W & K & _).
    assert (B := vs_bound C h n w st vs I).
    destruct (unmark_all C h n w OK st vs I fuel ltac:(lia)) as (st' & -> & P & N' & A & A').
    cbn [heap pm next]. split; [exact A|]. split; [exact P|]. split; [lia|].
    exists (fun a => n + index_of a vs).
    assert (RN : forall v v', img C h n vs v v' -> v' = rename C h (fun a => n + index_of a vs) v).
    { intros v v'. unfold img, rename. destruct v as [z|a|]; auto. destruct (leaf C h a); auto.
      intros (j & Hj & ->). rewrite (index_of_nth _ _ _ (i_nd _ _ _ _ _ _ I) Hj). reflexivity. }
    assert (ALL : forall a, reach C h w a -> In a vs).
    { intros a R. induction R as [a E L|a i c R IH Hi E L].
      - unfold img in W. rewrite E, L in W. destruct W as (j & Hj & _). exact (nth_error_In _ _ Hj).
      - destruct (In_nth_error _ _ IH) as [j Hj].
        assert (Ln : i < nwords C (h a)).
        { revert Hi. unfold nptrs, nwords. destruct (etype (h a)); auto; lia. }
        assert (Q := K j (conj (Nat.le_0_l _) (nth_error_lt _ _ _ Hj)) a Hj i Ln).
        rewrite (proj2 (Nat.ltb_lt _ _) Hi) in Q. rewrite E in Q. unfold img in Q. rewrite L in Q.
        destruct Q as (m & Hm & _). exact (nth_error_In _ _ Hm). }
    split; [split; [|split]|apply RN; exact W].
    + intros a R. assert (Q := nth_error_lt _ _ _ (index_of_ok a vs (ALL a R))). lia.
    + intros a c Ra Rc E. assert (Ia := index_of_ok a vs (ALL a Ra)). assert (Ic := index_of_ok c vs (ALL c Rc)).
      replace (index_of c vs) with (index_of a vs) in Ic by lia. congruence.
    + intros a R. assert (Ia := index_of_ok a vs (ALL a R)). rewrite (A' (n + index_of a vs)) by lia.
      split; [exact (i_clone _ _ _ _ _ _ I _ _ Ia)|]. intros i Hi.
      assert (Q := K (index_of a vs) (conj (Nat.le_0_l _) (nth_error_lt _ _ _ Ia)) a Ia i (carries_nwords _ _ _ Hi)).
      destruct (i <? nptrs C (h a)); auto.
  - destruct G as (vs & I & LB). assert (B := vs_bound C h n w st vs I).
    destruct (unmark_all C h n w OK st vs I fuel ltac:(lia)) as (st' & -> & P & N' & A & A').
    cbn [heap pm next]. split; [exact A|split; [exact P|exact LB]].
Qed.

(** what is reachable from the copy is exactly the image of what is reachable from the original *)
Lemma copy_reach C h w n h' n' f : copyable C h n w -> unchanged n h h' -> copy_of C h w n h' n' f ->
  forall b, reach C h' (rename C h f w) b <-> exists a, reach C h w a /\ b = f a.
Proof.
  intros OK U (K1 & K2 & K3) b.
  assert (LF : forall a, a < n -> leaf C h' a = leaf C h a).
  { intros a La. unfold leaf. destruct (U a La) as [(E & _) _]. rewrite E; reflexivity. }
  assert (LG : forall a, reach C h w a -> leaf C h' (f a) = false).
  { intros a R. unfold leaf. destruct (K3 a R) as [(E & _) _]. rewrite E. exact (reach_nonleaf C h w a R). }
  assert (RV : forall v c, valid n v -> rename C h f v = WPtr c -> leaf C h' c = false ->
               exists a, v = WPtr a /\ c = f a /\ leaf C h a = false).
  { intros v c V E Lc. destruct v as [z|a|]; cbn [rename] in E; try discriminate.
    destruct (leaf C h a) eqn:La.
    - injection E as <-. rewrite (LF a V) in Lc. congruence.
    - injection E as <-. exists a; auto. }
  assert (NP : forall a, reach C h w a -> nptrs C (h' (f a)) = nptrs C (h a)).
  { intros a R. apply same_hdr_nptrs. exact (proj1 (K3 a R)). }
  assert (LT : forall a i, i < nptrs C (h a) -> carries C (h a) i).
  { intros a i. unfold nptrs, carries. destruct (etype (h a)); auto; lia. }
  split.
  - intros R. remember (rename C h f w) as v eqn:E. induction R as [c Ev L|c i d R IH Hi Ed L].
    + rewrite E in Ev. destruct (RV w c (proj1 OK) Ev L) as (a & Ea & -> & La).
      exists a; split; auto. apply reach_here; auto.
    + destruct IH as (a & Ra & ->). rewrite (NP a Ra) in Hi.
      rewrite (proj2 (K3 a Ra) i (LT a i Hi)), (proj2 (Nat.ltb_lt _ _) Hi) in Ed.
      destruct (RV _ d (proj1 (proj2 OK a Ra) i Hi) Ed L) as (a' & Ea & -> & La).
      exists a'; split; auto. exact (reach_slot C h w a i a' Ra Hi Ea La).
  - intros (a & R & ->). induction R as [a E L|a i c R IH Hi E L].
    + apply reach_here.
      * rewrite E. cbn [rename]. rewrite L. reflexivity.
      * apply LG. apply reach_here; auto.
    + assert (Rc := reach_slot C h w a i c R Hi E L).
      apply (reach_slot C h' _ (f a) i); auto.
      * rewrite (NP a R); exact Hi.
      * rewrite (proj2 (K3 a R) i (LT a i Hi)), (proj2 (Nat.ltb_lt _ _) Hi), E. cbn [rename]. rewrite L; reflexivity.
Qed.

(** an object with fewer than two slots, or an empty pointer vector: the NULL after the last slot is followed *)
Lemma copy_short C limit h n a fuel : leaf C h a = false -> iv (h a) (fpos (etype (h a))) = WNull ->
  etype (h a) = FIXED \/ etype (h a) = POINTER -> a < n -> 2 <= fuel ->
  COPYOBJ fuel C limit h n (WPtr a) = CUndef.
Proof.
  intros L X E La F. destruct fuel as [|[|f]]; try lia.
  unfold COPYOBJ. cbn [copyobj heap pm]. change (is_leaf C (cix (h a))) with (leaf C h a).
  rewrite L. rewrite X. change (limit <? length (@nil word)) with false. cbv iota.
  destruct E as [-> | ->]; reflexivity.
Qed.
