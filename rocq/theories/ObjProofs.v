(** The table of classes agrees with the definitions. *)
From Coq Require Import ZArith List Bool Arith Lia.
From Verif Require Import ObjModel ObjSpec.
Import ListNotations.
Open Scope nat_scope.

Lemma run_snoc ops o t : run (ops ++ [o]) t = match run ops t with Some t => step t o | None => None end.
Proof. revert t. induction ops as [|a ops IH]; intros t; cbn [run app]; [destruct (step t o); reflexivity|]. destruct (step t a); [apply IH | reflexivity]. Qed.
Lemma definitions_snoc ops o : definitions (ops ++ [o]) = definitions ops ++ match o with NewClass sup slots => [(sup, slots)] | _ => [] end.
Proof. induction ops as [|[] ops IH]; cbn [definitions app]; [destruct o; reflexivity | rewrite IH; reflexivity | exact IH | exact IH]. Qed.
Lemma own_method_snoc ops o c sel m : own_method (ops ++ [o]) c sel m =
  match o with AddMethod d s n => if (d =? c) && (s =? sel) then Some n else own_method ops c sel m | _ => own_method ops c sel m end.
Proof. revert m. induction ops as [|[] ops IH]; intros m'; cbn [own_method app]; try apply IH. destruct o; reflexivity. Qed.

Lemma memb_iff x l : memb x l = true <-> In x l.
Proof.
  unfold memb. rewrite existsb_exists. split; [intros (y & M & E); apply Nat.eqb_eq in E; subst; exact M | intros M; exists x; rewrite Nat.eqb_refl; auto].
Qed.
Lemma push_slots_spec slots : forall vs fs vs' fs', push_slots slots vs fs = Some (vs', fs') -> NoDup vs ->
  vs' = rev (map fst slots) ++ vs /\ fs' = rev (map snd slots) ++ fs /\ NoDup vs'.
Proof.
  induction slots as [|[v f] r IH]; intros vs fs vs' fs' E N; cbn [push_slots] in E.
  - injection E as <- <-. auto.
  - destruct (memb v vs) eqn:M; [discriminate|].
    assert (~ In v vs) by (intros I0; apply memb_iff in I0; congruence).
    destruct (IH _ _ _ _ E) as (-> & -> & N'); [constructor; assumption|]. cbn [map fst snd rev]. rewrite <- !app_assoc. auto.
Qed.
Lemma nth_replace t i c j : i < length t -> nth_error (replace t i c) j = if j =? i then Some c else nth_error t j.
Proof.
  intros L. unfold replace. assert (Lf : length (firstn i t) = i) by (rewrite firstn_length; lia).
  destruct (Nat.eqb_spec j i) as [-> | Ne].
  - rewrite nth_error_app2, Lf, Nat.sub_diag by lia. reflexivity.
  - rewrite <- (firstn_skipn i t) at 3. destruct (Nat.lt_ge_cases j i) as [H | H].
    + rewrite !nth_error_app1 by lia. reflexivity.
    + rewrite !nth_error_app2 by lia. rewrite Lf. replace (j - i) with (S (j - i - 1)) by lia. cbn [nth_error].
      destruct (skipn i t) as [|x r] eqn:E; [assert (length (skipn i t) = 0) by (rewrite E; reflexivity); rewrite skipn_length in *; lia|].
      cbn [nth_error]. f_equal. clear - E. revert i E. induction t as [|y t IH]; intros [|i] E; cbn in *; try discriminate; [injection E; auto|]. apply IH. exact E.
Qed.
Lemma length_replace t i c : i < length t -> length (replace t i c) = length t.
Proof. intros L. unfold replace. rewrite app_length. cbn [length]. rewrite firstn_length, skipn_length. lia. Qed.
Lemma assq_set l sel m s : assq s (set_method l sel m) = if sel =? s then Some m else assq s l.
Proof.
  induction l as [|[a b] l IH]; cbn [set_method assq]; [reflexivity|].
  destruct (Nat.eqb_spec a sel) as [-> | Ne]; cbn [assq]; [destruct (sel =? s); reflexivity|]. rewrite IH.
  destruct (Nat.eqb_spec a s) as [-> | Na]; [|reflexivity]. destruct (Nat.eqb_spec sel s); [congruence | reflexivity].
Qed.

Definition class_ok (ops : list op) (t : table) (c : nat) (k : cls) : Prop :=
  super k = super_of ops c /\ (forall sel, assq sel (methods k) = own_method ops c sel None) /\ NoDup (vars k) /\ length (forwards k) = length (vars k) /\
  match super k with None => c = 0 /\ vars k = [] /\ forwards k = [] | Some s => s < c /\ exists ks, nth_error t s = Some ks /\
    vars k = vars ks ++ map fst (own_slots ops c) /\ forwards k = forwards ks ++ map snd (own_slots ops c) end.
Definition inv (ops : list op) (t : table) : Prop :=
  length t = S (length (definitions ops)) /\ (forall c sel, length t <= c -> own_method ops c sel None = None) /\
  forall c k, nth_error t c = Some k -> class_ok ops t c k.

Lemma super_of_snoc ops o c : c < S (length (definitions ops)) -> super_of (ops ++ [o]) c = super_of ops c /\ own_slots (ops ++ [o]) c = own_slots ops c.
Proof.
  intros L. destruct c as [|n]; [auto|]. cbn [super_of own_slots]. rewrite definitions_snoc, nth_error_app1 by lia. auto.
Qed.
Lemma inv_run ops : fresh ops -> forall t, run ops first_table = Some t -> inv ops t.
Proof.
  induction ops as [|o ops IH] using rev_ind; intros F t R.
  - injection R as <-. split; [reflexivity|]. split; [reflexivity|]. intros [|[|c]] k E; try discriminate E. injection E as <-.
    split; [reflexivity|]. split; [reflexivity|]. split; [constructor|]. split; [reflexivity|]. cbn [super vars forwards]. split; [reflexivity|]. split; reflexivity.
  - rewrite run_snoc in R. destruct (run ops first_table) as [t0|] eqn:R0; [|discriminate].
    destruct (IH (fun c s l M => F c s l (in_or_app _ _ _ (or_introl M))) t0 eq_refl) as (Ln & Om & H). clear IH R0.
    destruct o as [sup slots | c sup slots | c sel m]; cbn [step] in R.
    + unfold make_class in R. destruct (nth_error t0 sup) as [ks|] eqn:Es; [|discriminate].
      destruct (push_slots slots (rev (vars ks)) (rev (forwards ks))) as [[vs fs]|] eqn:P; [|discriminate]. injection R as <-.
      destruct (H _ _ Es) as (S1 & S2 & S3 & S4 & S5).
      apply push_slots_spec in P; [|apply NoDup_rev; exact S3]. destruct P as (-> & -> & Nd).
      assert (Ls : sup < length t0) by (apply nth_error_Some; congruence).
      split; [rewrite app_length, definitions_snoc, app_length; cbn; lia|]. split.
      { intros c sel L. rewrite app_length in L. cbn in L. rewrite own_method_snoc. apply Om. lia. }
      intros c k E. destruct (Nat.lt_ge_cases c (length t0)) as [L | L].
      * rewrite nth_error_app1 in E by exact L. destruct (H _ _ E) as (K1 & K2 & K3 & K4 & K5).
        destruct (super_of_snoc ops (NewClass sup slots) c) as [Q1 Q2]; [lia|]. unfold class_ok. rewrite Q1, Q2.
        split; [exact K1|]. split; [intros sel; rewrite own_method_snoc; apply K2|]. split; [exact K3|]. split; [exact K4|].
        destruct (super k) as [s|]; [|exact K5]. destruct K5 as [Lt (k' & E' & V)]. split; [exact Lt|]. exists k'.
        split; [rewrite nth_error_app1; [exact E' | lia] | exact V].
      * assert (c = length t0).
        { assert (c < length (t0 ++ [Cls (Some sup) (rev (rev (map fst slots) ++ rev (vars ks))) (rev (rev (map snd slots) ++ rev (forwards ks))) []])) by (apply nth_error_Some; congruence).
          rewrite app_length in *. cbn in *. lia. }
        subst c. rewrite nth_error_app2, Nat.sub_diag in E by lia. injection E as <-. unfold class_ok. cbn [super methods vars forwards].
        assert (D : nth_error (definitions (ops ++ [NewClass sup slots])) (length (definitions ops)) = Some (sup, slots))
          by (rewrite definitions_snoc, nth_error_app2, Nat.sub_diag by lia; reflexivity).
        rewrite Ln. cbn [super_of own_slots]. rewrite D. split; [reflexivity|].
        split; [intros sel; rewrite own_method_snoc; cbn [assq]; symmetry; apply Om; lia|].
        rewrite !rev_app_distr, !rev_involutive. split.
        { rewrite <- (rev_involutive (vars ks ++ map fst slots)). apply NoDup_rev. rewrite rev_app_distr. exact Nd. }
        split; [rewrite !app_length, !map_length; lia|]. split; [lia|]. exists ks. split; [rewrite nth_error_app1; [exact Es | lia]|]. split; reflexivity.
    + exfalso. apply (F c sup slots). apply in_or_app. right. left. reflexivity.
    + unfold addmethod in R. destruct (nth_error t0 c) as [k0|] eqn:Ec; [|discriminate]. injection R as <-.
      assert (Lc : c < length t0) by (apply nth_error_Some; congruence).
      split; [rewrite length_replace, definitions_snoc, app_nil_r by exact Lc; exact Ln|]. split.
      { intros d s L. rewrite length_replace in L by exact Lc. rewrite own_method_snoc. destruct (Nat.eqb_spec c d); [lia|]. cbn [andb]. apply Om. exact L. }
      intros d k E. rewrite nth_replace in E by exact Lc.
      assert (Ld : d < length t0) by (destruct (Nat.eqb_spec d c); [lia | apply nth_error_Some; congruence]).
      assert (exists kd, nth_error t0 d = Some kd /\ super k = super kd /\ vars k = vars kd /\ forwards k = forwards kd /\
                forall s, assq s (methods k) = if (c =? d) && (sel =? s) then Some m else assq s (methods kd)) as (kd & Ed & X1 & X2 & X3 & X4).
      { destruct (Nat.eqb_spec d c) as [-> | Ne].
        - injection E as <-. exists k0. split; [exact Ec|]. cbn [super vars forwards methods]. rewrite Nat.eqb_refl. cbn [andb].
          split; [reflexivity|]. split; [reflexivity|]. split; [reflexivity|]. intros s. apply assq_set.
        - exists k. split; [exact E|]. destruct (Nat.eqb_spec c d); [congruence|]. cbn [andb]. auto. }
      destruct (H _ _ Ed) as (K1 & K2 & K3 & K4 & K5).
      destruct (super_of_snoc ops (AddMethod c sel m) d) as [Q1 Q2]; [lia|]. unfold class_ok. rewrite Q1, Q2, X1, X2, X3.
      split; [exact K1|]. split; [intros s; rewrite X4, own_method_snoc, K2; reflexivity|]. split; [exact K3|]. split; [exact K4|].
      destruct (super kd) as [s|]; [|exact K5]. destruct K5 as [Lt (k' & E' & V)]. split; [exact Lt|].
      destruct (Nat.eqb_spec s c) as [-> | Ne].
      * eexists. split; [rewrite nth_replace, Nat.eqb_refl by exact Lc; reflexivity|]. cbn [vars]. rewrite Ec in E'. injection E' as <-. exact V.
      * exists k'. split; [rewrite nth_replace by exact Lc; destruct (Nat.eqb_spec s c); [congruence | exact E'] | exact V].
Qed.

Section TABLE.
  Variables (ops : list op) (t : table).
  Hypothesis Hinv : inv ops t.

  Lemma class_of c : c < length t -> exists k, nth_error t c = Some k /\ class_ok ops t c k.
  Proof. intros L. destruct (nth_error t c) as [k|] eqn:E; [|apply nth_error_None in E; lia]. exists k. split; [reflexivity|]. apply Hinv. exact E. Qed.

  Lemma lineage_exists : forall n c, c < n -> c < length t -> exists l, lineage ops c l /\ NoDup l /\ forall d, In d l -> d <= c.
  Proof.
    induction n as [|n IH]; intros c Ln Lc; [lia|]. destruct (class_of c Lc) as (k & E & K1 & _ & _ & _ & K5).
    destruct (super k) as [s|] eqn:Es.
    - destruct K5 as [Lt _]. destruct (IH s) as (l & Hl & Nd & Hle); [lia | lia|].
      exists (c :: l). split; [econstructor; [symmetry; exact K1 | exact Hl]|]. split.
      + constructor; [|exact Nd]. intros M. specialize (Hle _ M). lia.
      + intros d [<- | M]; [lia|]. specialize (Hle _ M). lia.
    - destruct K5 as [-> _]. exists [0]. split; [constructor|]. split; [constructor; [intros [] | constructor]|]. intros d [<- | []]. lia.
  Qed.
  Lemma lineage_fun c l l' : lineage ops c l -> lineage ops c l' -> l = l'.
  Proof.
    intros H. revert l'. induction H as [|c s l E H IH]; intros l' H'; inversion H'; subst; try reflexivity.
    - discriminate.
    - discriminate.
    - rewrite E in H0. injection H0 as ->. f_equal. apply IH. exact H1.
  Qed.
  Lemma super_lt c s : c < length t -> super_of ops c = Some s -> s < c.
  Proof. intros L E. destruct (class_of c L) as (k & _ & K1 & _ & _ & _ & K5). rewrite K1, E in K5. apply K5. Qed.

  Lemma find_spec sel : forall fuel c l, c < fuel -> c < length t -> lineage ops c l -> find_loop fuel t sel c = Some (hd_error (method_list ops l sel)).
  Proof.
    induction fuel as [|n IH]; intros c l Lf Lc Hl; [lia|]. cbn [find_loop].
    destruct (class_of c Lc) as (k & -> & K1 & K2 & _ & _ & K5). rewrite K2, K1.
    destruct Hl as [|c s l E Hl]; cbn [method_list flat_map].
    - destruct (own_method ops 0 sel None); reflexivity.
    - fold (method_list ops l sel). destruct (own_method ops c sel None); [reflexivity|]. rewrite E. cbn [app].
      apply super_lt in E; [|exact Lc]. apply IH; [lia | lia | exact Hl].
  Qed.
  Lemma findmethod_spec sel c l : c < length t -> lineage ops c l -> findmethod t sel c = Some (hd_error (method_list ops l sel)).
  Proof. intros L Hl. apply find_spec; [lia | exact L | exact Hl]. Qed.

  Lemma vars_spec : forall c l, lineage ops c l -> c < length t -> vars_of t c = map fst (all_slots ops l) /\ forwards_of t c = map snd (all_slots ops l) /\ NoDup (vars_of t c) /\
    forall d, In d l -> d < length t /\ exists more, vars_of t c = vars_of t d ++ more.
  Proof.
    intros c l H. induction H as [|c s l E H IH]; intros L.
    - destruct (class_of 0 L) as (k & Ek & K1 & _ & K3 & _ & K5). unfold forwards_of. unfold vars_of at 1 2. rewrite Ek. rewrite K1 in K5. destruct K5 as (_ & V & W).
      rewrite V, W. split; [reflexivity|]. split; [reflexivity|]. split; [constructor|]. intros d [<- | []]. split; [exact L|]. exists []. rewrite app_nil_r. reflexivity.
    - pose proof (super_lt _ _ L E) as Lt. destruct IH as (I1 & I1' & I2 & I3); [lia|].
      destruct (class_of c L) as (k & Ek & K1 & _ & K3 & _ & K5). rewrite K1, E in K5. destruct K5 as (_ & ks & Eks & V & W).
      assert (V' : vars_of t c = vars_of t s ++ map fst (own_slots ops c)) by (unfold vars_of; rewrite Ek, Eks; exact V).
      assert (W' : forwards_of t c = forwards_of t s ++ map snd (own_slots ops c)) by (unfold forwards_of; rewrite Ek, Eks; exact W).
      assert (A : all_slots ops (c :: l) = all_slots ops l ++ own_slots ops c)
        by (unfold all_slots; cbn [rev]; rewrite flat_map_app; cbn [flat_map]; rewrite app_nil_r; reflexivity).
      rewrite A, !map_app. split; [rewrite V', I1; reflexivity|]. split; [rewrite W', I1'; reflexivity|]. split.
      + unfold vars_of. rewrite Ek. exact K3.
      + intros d [<- | M]; [split; [exact L|]; exists []; rewrite app_nil_r; reflexivity|]. destruct (I3 _ M) as [Ld [more Em]].
        split; [exact Ld|]. exists (more ++ map fst (own_slots ops c)). rewrite V', Em, app_assoc. reflexivity.
  Qed.

  Lemma length_table : length t = S (length (definitions ops)).
  Proof. apply Hinv. Qed.
  (** the methods along a lineage are met one after the other *)
  Lemma lineage_in c l d : lineage ops c l -> In d l -> exists pre post, l = pre ++ d :: post /\ lineage ops d (d :: post).
  Proof.
    intros H. induction H as [|c s l E H IH]; intros M.
    - destruct M as [<- | []]. exists [], []. split; [reflexivity | constructor].
    - destruct M as [<- | M]; [exists [], l; split; [reflexivity | econstructor; eassumption]|].
      destruct (IH M) as (pre & post & -> & Hd). exists (c :: pre), post. auto.
  Qed.

  Section HEAP.
    Variable h : heap.
    Hypothesis Hs : sound ops h.
    Lemma classof_lt v c : classof h v = Some c -> c < length t.
    Proof.
      rewrite length_table. destruct v as [z | o | s]; cbn [classof]; [discriminate| |intros [= <-]; lia].
      destruct (nth_error h o) as [x|] eqn:E; [intros [= <-]; apply (Hs _ _ E) | discriminate].
    Qed.
    Lemma classof_some v : sound_val h v -> (exists z, v = Num z) \/ exists c, classof h v = Some c.
    Proof.
      destruct v as [z | o | s]; cbn [sound_val classof]; intros S0; [left; eauto | | right; eauto].
      right. destruct (nth_error h o) as [x|] eqn:E; [eauto | apply nth_error_None in E; lia].
    Qed.
    Lemma responds_find v sel ms : responds ops h v sel ms -> exists c, classof h v = Some c /\ findmethod t sel c = Some (hd_error ms).
    Proof. intros (c & l & E & Hl & ->). exists c. split; [exact E|]. apply findmethod_spec; [apply (classof_lt _ _ E) | exact Hl]. Qed.
    Lemma responds_exists v c sel : classof h v = Some c -> exists ms, responds ops h v sel ms /\ findmethod t sel c = Some (hd_error ms).
    Proof.
      intros E. pose proof (classof_lt _ _ E) as L. destruct (lineage_exists (S c) c) as (l & Hl & _); [lia | exact L|].
      exists (method_list ops l sel). split; [exists c, l; auto | apply findmethod_spec; assumption].
    Qed.
    Lemma accepts_wants sel f : accepts sel f = true <-> wants sel f.
    Proof. destruct f as [|l]; cbn [accepts wants]; [split; auto | apply memb_iff]. Qed.
    Lemma forward_deaf sel : forall fs vs pre post, combine fs vs = pre ++ post -> deaf ops h sel pre ->
      exists fs' vs', combine fs' vs' = post /\ findforward t h sel fs vs = findforward t h sel fs' vs'.
    Proof.
      induction fs as [|f fs IH]; intros vs pre post E D.
      - exists [], vs. destruct pre, post; try discriminate. auto.
      - destruct pre as [|[f0 v0] pre]; [exists (f :: fs), vs; auto|]. destruct vs as [|v vs]; [discriminate|]. cbn in E. injection E as <- <- E.
        destruct (IH vs pre post E) as (fs' & vs' & E' & Q); [intros f1 v1 M; apply D; right; exact M|].
        exists fs', vs'. split; [exact E'|]. rewrite <- Q. cbn [findforward]. destruct (accepts sel f) eqn:A; [|reflexivity].
        apply accepts_wants in A. destruct (responds_find _ _ _ (D f v (or_introl eq_refl) A)) as (c & -> & ->). reflexivity.
    Qed.
    Lemma forward_cases sel : forall fs vs, (forall v, In v vs -> sound_val h v) ->
      deaf ops h sel (combine fs vs) \/
      (exists pre f z post, combine fs vs = pre ++ (f, Num z) :: post /\ deaf ops h sel pre /\ wants sel f) \/
      (exists pre f v post d m ms, combine fs vs = pre ++ (f, v) :: post /\ deaf ops h sel pre /\ wants sel f /\ responds ops h v sel ((d, m) :: ms)).
    Proof.
      induction fs as [|f fs IH]; intros vs Sv; [left; intros ? ? []|]. destruct vs as [|v vs]; [left; intros ? ? []|]. cbn [combine].
      assert (Dn : deaf ops h sel []) by (intros ? ? []).
      assert (K : (wants sel f -> responds ops h v sel []) \/ wants sel f /\ ((exists z, v = Num z) \/ exists d m ms, responds ops h v sel ((d, m) :: ms))).
      { destruct (accepts sel f) eqn:A; [|left; intros W; apply accepts_wants in W; congruence]. apply accepts_wants in A.
        destruct (classof_some v) as [N | [c C]]; [apply Sv; left; reflexivity | right; auto|].
        destruct (responds_exists v c sel C) as ([|[d m] ms] & R & _); [left; auto | right; split; [exact A | right; eauto]]. }
      destruct K as [K | (W & [[z ->] | (d & m & ms & R)])].
      - destruct (IH vs) as [D | [(pre & f1 & z & post & E & D & W) | (pre & f1 & v1 & post & d & m & ms & E & D & W & R)]]; [intros v1 M; apply Sv; right; exact M| | |].
        + left. intros f1 v1 [[= <- <-] | M]; [exact K | apply D; exact M].
        + right. left. exists ((f, v) :: pre), f1, z, post. rewrite E. split; [reflexivity|]. split; [|exact W].
          intros f2 v2 [[= <- <-] | M]; [exact K | apply D; exact M].
        + right. right. exists ((f, v) :: pre), f1, v1, post, d, m, ms. rewrite E. split; [reflexivity|]. split; [|auto].
          intros f2 v2 [[= <- <-] | M]; [exact K | apply D; exact M].
      - right. left. exists [], f, z, (combine fs vs). auto.
      - right. right. exists [], f, v, (combine fs vs), d, m, ms. auto.
    Qed.
    Lemma combine_cons {A B} (fs : list A) (vs : list B) f v post : combine fs vs = (f, v) :: post -> exists fs' vs', fs = f :: fs' /\ vs = v :: vs'.
    Proof. destruct fs, vs; cbn; try discriminate. intros [= <- <- _]. eauto. Qed.

    Lemma send_answer r sel args o : answer ops h r sel args o -> SEND t h r sel args = o.
    Proof.
      intros A. unfold SEND. destruct A as [z -> | d m ms R | c l pre f comp post d m ms R C Hl E D W R' | c l pre f z post R C Hl E D W | c l d m ms R C Hl D R' | c l R C Hl D R'].
      - reflexivity.
      - destruct (responds_find _ _ _ R) as (c & -> & ->). reflexivity.
      - destruct (responds_find _ _ _ R) as (c' & C' & F'). assert (c' = c) by congruence. subst c'. rewrite C, F'. cbn [hd_error].
        destruct (vars_spec _ _ Hl (classof_lt _ _ C)) as (_ & -> & _). destruct (forward_deaf sel _ _ _ _ E D) as (fs' & vs' & Q & ->).
        destruct (combine_cons _ _ _ _ _ Q) as (f1 & v1 & -> & ->). cbn [findforward]. apply accepts_wants in W. rewrite W.
        destruct (responds_find _ _ _ R') as (c2 & -> & ->). reflexivity.
      - destruct (responds_find _ _ _ R) as (c' & C' & F'). assert (c' = c) by congruence. subst c'. rewrite C, F'. cbn [hd_error].
        destruct (vars_spec _ _ Hl (classof_lt _ _ C)) as (_ & -> & _). destruct (forward_deaf sel _ _ _ _ E D) as (fs' & vs' & Q & ->).
        destruct (combine_cons _ _ _ _ _ Q) as (f1 & v1 & -> & ->). cbn [findforward]. apply accepts_wants in W. rewrite W. reflexivity.
      - destruct (responds_find _ _ _ R) as (c' & C' & F'). assert (c' = c) by congruence. subst c'. rewrite C, F'. cbn [hd_error].
        destruct (vars_spec _ _ Hl (classof_lt _ _ C)) as (_ & -> & _).
        destruct (forward_deaf sel (map snd (all_slots ops l)) (slots_of h r) _ [] (eq_sym (app_nil_r _)) D) as (fs' & vs' & Q & ->).
        assert (findforward t h sel fs' vs' = FNone) as -> by (destruct fs', vs'; try reflexivity; discriminate Q).
        destruct (responds_find _ _ _ R') as (c2 & C2 & F2). assert (c2 = c) by congruence. subst c2. rewrite F2. reflexivity.
      - destruct (responds_find _ _ _ R) as (c' & C' & F'). assert (c' = c) by congruence. subst c'. rewrite C, F'. cbn [hd_error].
        destruct (vars_spec _ _ Hl (classof_lt _ _ C)) as (_ & -> & _).
        destruct (forward_deaf sel (map snd (all_slots ops l)) (slots_of h r) _ [] (eq_sym (app_nil_r _)) D) as (fs' & vs' & Q & ->).
        assert (findforward t h sel fs' vs' = FNone) as -> by (destruct fs', vs'; try reflexivity; discriminate Q).
        destruct (responds_find _ _ _ R') as (c2 & C2 & F2). assert (c2 = c) by congruence. subst c2. rewrite F2. reflexivity.
    Qed.
    Lemma slots_sound r : forall v, In v (slots_of h r) -> sound_val h v.
    Proof. destruct r as [z | o | s]; cbn [slots_of]; try intros ? []. destruct (nth_error h o) as [x|] eqn:E; [apply (Hs _ _ E) | intros ? []]. Qed.
    Lemma answer_exists r sel args : sound_val h r -> exists o, answer ops h r sel args o.
    Proof.
      intros Sr. destruct (classof_some r Sr) as [[z ->] | [c C]]; [exists NoObject; eapply ANumber; reflexivity|].
      destruct (responds_exists r c sel C) as ([|[d m] ms] & R & _); [|eexists; eapply AMethod; exact R].
      destruct (lineage_exists (S c) c) as (l & Hl & _); [lia | apply (classof_lt _ _ C)|].
      destruct (forward_cases sel (map snd (all_slots ops l)) (slots_of h r) (slots_sound r)) as [D | [(pre & f & z & post & E & D & W) | (pre & f & v & post & d & m & ms & E & D & W & R')]].
      - destruct (responds_exists r c K_NOMETHOD C) as ([|[d m] ms] & R' & _); eexists; [eapply AError | eapply ANoMethod]; eassumption.
      - eexists. eapply AForwardNumber; eassumption.
      - eexists. eapply AForward; eassumption.
    Qed.
  End HEAP.
End TABLE.

Lemma position_app v l more i : In v l -> position v (l ++ more) i = position v l i.
Proof.
  revert i. induction l as [|x l IH]; intros i M; [destruct M|]. cbn [position app]. destruct (Nat.eqb_spec x v) as [-> | Ne]; [reflexivity|].
  destruct M as [M | M]; [congruence|]. apply IH. exact M.
Qed.
Lemma position_nth v l i : position v l i = None /\ ~ In v l \/ exists j, position v l i = Some (i + j) /\ nth_error l j = Some v.
Proof.
  revert i. induction l as [|x l IH]; intros i; cbn [position]; [left; auto|]. destruct (Nat.eqb_spec x v) as [-> | Ne].
  - right. exists 0. split; [f_equal; lia | reflexivity].
  - destruct (IH (S i)) as [[E N] | (j & E & Nj)]; [left | right].
    + split; [exact E|]. intros [M | M]; auto.
    + exists (S j). split; [rewrite E; f_equal; lia | exact Nj].
Qed.
