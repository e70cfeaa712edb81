(** Proofs about quick-sort. *)
From Coq Require Import Permutation Sorting.Sorted.
From Verif Require Import QsortModel.

Section Proofs.
Context {A : Type} (lt : A -> A -> bool).

Definition len (v : list A) : Z := Z.of_nat (length v).
Definition below (d x : A) : Prop := lt x d = true.
Definition notbelow (d x : A) : Prop := lt x d = false.

Lemma aref_app a (x : A) b i : i = len a -> aref (a ++ x :: b) i = Done x.
Proof.
  intros ->. unfold aref, len. destruct (Z.ltb_spec (Z.of_nat (length a)) 0); [lia|]. rewrite Nat2Z.id.
  rewrite nth_error_app2 by lia. rewrite Nat.sub_diag. reflexivity.
Qed.

Lemma aset_app a (x y : A) b i : i = len a -> aset (a ++ x :: b) i y = Done (a ++ y :: b).
Proof.
  intros ->. unfold aset, len. rewrite app_length. cbn [length].
  destruct (Z.leb_spec 0 (Z.of_nat (length a))); [|lia].
  destruct (Z.ltb_spec (Z.of_nat (length a)) (Z.of_nat (length a + S (length b)))); [|lia]. cbn [andb]. rewrite Nat2Z.id.
  f_equal. induction a as [|z a IH]; [reflexivity|]. cbn [app set_nth length]. rewrite IH; [reflexivity|lia|lia].
Qed.

Lemma len_app a b : len (a ++ b) = len a + len b.
Proof. unfold len. rewrite app_length. lia. Qed.
Lemma len_cons x a : len (x :: a) = len a + 1.
Proof. unfold len. cbn [length]. lia. Qed.
Lemma len_nil : len [] = 0.
Proof. reflexivity. Qed.
Lemma len_pos a : 0 <= len a.
Proof. unfold len. lia. Qed.

Ltac lens := repeat rewrite ?len_app, ?len_cons, ?len_nil in *.

Lemma down_ok d : forall M fuel P R, (length M < fuel)%nat ->
  (Forall (notbelow d) M /\ down lt fuel (P ++ M ++ R) (len P) (len P + len M - 1) d = Done (len P - 1)) \/
  (exists M1 y M2, M = M1 ++ y :: M2 /\ below d y /\ Forall (notbelow d) M2 /\
     down lt fuel (P ++ M ++ R) (len P) (len P + len M - 1) d = Done (len P + len M1)).
Proof.
  intros M. induction M as [|x M IH] using rev_ind; intros fuel P R L.
  - left. split; [constructor|]. destruct fuel; [lia|]. cbn [down]. lens.
    destruct (len P >? len P + 0 - 1) eqn:G; [|lia]. f_equal. lia.
  - rewrite app_length in L. cbn [length] in L. destruct fuel as [|fuel]; [lia|]. cbn [down]. lens. pose proof (len_pos M).
    destruct (len P >? len P + (len M + (0 + 1)) - 1) eqn:G; [lia|].
    replace (P ++ (M ++ [x]) ++ R) with ((P ++ M) ++ x :: R) by (rewrite <- !app_assoc; reflexivity).
    rewrite aref_app by (lens; lia). cbn [bind]. destruct (lt x d) eqn:B.
    + right. exists M, x, []. split; [reflexivity|]. split; [exact B|]. split; [constructor|]. f_equal. lia.
    + replace (len P + (len M + (0 + 1)) - 1 - 1) with (len P + len M - 1) by lia.
      replace ((P ++ M) ++ x :: R) with (P ++ M ++ (x :: R)) by (rewrite <- app_assoc; reflexivity).
      destruct (IH fuel P (x :: R) ltac:(lia)) as [[F E]|(M1 & y & M2 & -> & By & F & E)].
      * left. split; [apply Forall_app; split; [exact F|constructor; [exact B|constructor]]|exact E].
      * right. exists M1, y, (M2 ++ [x]). split; [rewrite <- app_assoc; reflexivity|]. split; [exact By|].
        split; [apply Forall_app; split; [exact F|constructor; [exact B|constructor]]|exact E].
Qed.

Lemma up_ok d : forall M fuel P R, (length M < fuel)%nat ->
  (Forall (below d) M /\ up lt fuel (P ++ M ++ R) (len P) (len P + len M - 1) d = Done (len P + len M)) \/
  (exists X x Y, M = X ++ x :: Y /\ Forall (below d) X /\ notbelow d x /\
     up lt fuel (P ++ M ++ R) (len P) (len P + len M - 1) d = Done (len P + len X)).
Proof.
  induction M as [|x M IH]; intros fuel P R L.
  - left. split; [constructor|]. destruct fuel; [cbn [length] in L; lia|]. cbn [up]. lens.
    destruct (len P >? len P + 0 - 1) eqn:G; [|lia]. f_equal. lia.
  - cbn [length] in L. destruct fuel as [|fuel]; [lia|]. cbn [up]. lens. pose proof (len_pos M).
    destruct (len P >? len P + (len M + 1) - 1) eqn:G; [lia|].
    change (P ++ (x :: M) ++ R) with (P ++ x :: (M ++ R)). rewrite aref_app by reflexivity. cbn [bind]. destruct (lt x d) eqn:B.
    + replace (P ++ x :: (M ++ R)) with ((P ++ [x]) ++ M ++ R) by (rewrite <- app_assoc; reflexivity).
      replace (len P + 1) with (len (P ++ [x])) by (lens; lia).
      replace (len P + (len M + 1) - 1) with (len (P ++ [x]) + len M - 1) by (lens; lia).
      destruct (IH fuel (P ++ [x]) R ltac:(lia)) as [[F E]|(X & z & Y & -> & F & Nz & E)].
      * left. split; [constructor; [exact B|exact F]|]. rewrite E. lens. f_equal. lia.
      * right. exists (x :: X), z, Y. split; [reflexivity|]. split; [constructor; assumption|]. split; [exact Nz|].
        rewrite E. lens. f_equal. lia.
    + right. exists [], x, M. split; [reflexivity|]. split; [constructor|]. split; [exact B|]. lens. f_equal. lia.
Qed.

Lemma part_later d : forall fuel P L M R Q v, v = P ++ L ++ M ++ R ++ Q -> (length M < fuel)%nat -> L <> [] ->
  Forall (below d) L -> Forall (notbelow d) R ->
  exists L' R', part lt fuel v (len P) (len P + len L) (len P + len L + len M - 1) d =
      Done (Some (P ++ L' ++ R' ++ Q, len P + len L')) /\
    Forall (below d) L' /\ Forall (notbelow d) R' /\ Permutation (L ++ M ++ R) (L' ++ R') /\ (exists L2, L' = L ++ L2) /\
    (exists R2, R' = R2 ++ R).
Proof.
  induction fuel as [|fuel IH]; intros P L M R Q v EV0 F NL FL FR; [lia|].
  cbn [part]. pose proof (len_pos M) as HM. pose proof (len_pos P) as HP.
  assert (HL : 0 < len L) by (destruct L; [contradiction|lens; pose proof (len_pos L); lia]).
  destruct (len P + len L >? len P + len L + len M - 1) eqn:G.
  - assert (M = []) by (destruct M; [reflexivity|lens; pose proof (len_pos M); lia]). subst M.
    exists L, R. split; [rewrite EV0; reflexivity|]. split; [exact FL|]. split; [exact FR|]. split; [apply Permutation_refl|].
    split; [exists []; rewrite app_nil_r; reflexivity|exists []; reflexivity].
  - assert (EV : v = (P ++ L) ++ M ++ (R ++ Q)) by (rewrite EV0, <- app_assoc; reflexivity).
    assert (LM : (length M < S (S (length v)))%nat) by (rewrite EV, !app_length; lia).
    assert (EP : len P + len L = len (P ++ L)) by (lens; reflexivity).
    rewrite EP.
    destruct (down_ok d M (S (S (length v))) (P ++ L) (R ++ Q) LM) as [[FM E]|(M1 & y & M2 & EM & By & F2 & E)];
      rewrite <- EV in E; rewrite E; cbn [bind].
    + destruct (Z.ltb_spec (len (P ++ L) - 1) (len P)) as [X|_]; [lens; lia|].
      assert (U : up lt (S (S (length v))) v (len (P ++ L)) (len (P ++ L) - 1) d = Done (len (P ++ L))).
      { change (up lt (S (S (length v))) v (len (P ++ L)) (len (P ++ L) - 1) d) with
          (if len (P ++ L) >? len (P ++ L) - 1 then Done (len (P ++ L)) else
             bind (aref v (len (P ++ L))) (fun x => if lt x d then up lt (S (length v)) v (len (P ++ L) + 1) (len (P ++ L) - 1) d else Done (len (P ++ L)))).
        destruct (len (P ++ L) >? len (P ++ L) - 1) eqn:G'; [reflexivity|lia]. }
      rewrite U. cbn [bind]. destruct (len (P ++ L) >? len (P ++ L) - 1) eqn:G'; [|lia].
      exists L, (M ++ R). split; [rewrite <- EP, EV0, <- app_assoc; reflexivity|]. split; [exact FL|].
      split; [apply Forall_app; split; assumption|]. split; [apply Permutation_refl|].
      split; [exists []; rewrite app_nil_r; reflexivity|exists M; reflexivity].
    + destruct (Z.ltb_spec (len (P ++ L) + len M1) (len P)) as [X|_]; [lens; pose proof (len_pos M1); lia|].
      assert (EV2 : v = (P ++ L) ++ (M1 ++ [y]) ++ (M2 ++ R ++ Q)).
      { rewrite EV, EM, <- !app_assoc. reflexivity. }
      assert (LM1 : (length (M1 ++ [y]) < S (S (length v)))%nat) by (rewrite EV2, !app_length; cbn [length]; lia).
      replace (len (P ++ L) + len M1) with (len (P ++ L) + len (M1 ++ [y]) - 1) by (rewrite (len_app M1); lens; lia).
      destruct (up_ok d (M1 ++ [y]) (S (S (length v))) (P ++ L) (M2 ++ R ++ Q) LM1) as [[FM E']|(X & x & Y & EX & FX & Nx & E')];
        rewrite <- EV2 in E'; rewrite E'; cbn [bind].
      * destruct (len (P ++ L) + len (M1 ++ [y]) >? len (P ++ L) + len (M1 ++ [y]) - 1) eqn:G'; [|lia].
        exists (L ++ M1 ++ [y]), (M2 ++ R). split.
        { rewrite EV2. f_equal. f_equal. f_equal; [|lens; lia]. rewrite <- !app_assoc. reflexivity. }
        split; [apply Forall_app; split; assumption|]. split; [apply Forall_app; split; assumption|].
        split; [rewrite EM, <- !app_assoc; apply Permutation_refl|].
        split; [exists (M1 ++ [y]); reflexivity|exists M2; reflexivity].
      * destruct Y as [|y' Y' _] using rev_ind.
        { apply app_inj_tail in EX. destruct EX as [_ ->]. unfold notbelow, below in *. congruence. }
        replace (X ++ x :: Y' ++ [y']) with ((X ++ x :: Y') ++ [y']) in EX by (rewrite <- app_assoc; reflexivity).
        apply app_inj_tail in EX. destruct EX as [EM1 <-]. subst M1.
        assert (EK : len (P ++ L) + len ((X ++ x :: Y') ++ [y]) - 1 = len (P ++ L ++ X ++ x :: Y')) by (lens; lia).
        rewrite EK. destruct (len (P ++ L) + len X >? len (P ++ L ++ X ++ x :: Y')) eqn:G'; [lens; pose proof (len_pos Y'); lia|].
        assert (V1 : v = (P ++ L ++ X ++ x :: Y') ++ y :: (M2 ++ R ++ Q)).
        { rewrite EV2. rewrite <- !app_assoc. reflexivity. }
        assert (V2 : v = (P ++ L ++ X) ++ x :: (Y' ++ y :: M2 ++ R ++ Q)).
        { rewrite V1. rewrite <- !app_assoc. reflexivity. }
        assert (A1 : aref v (len (P ++ L ++ X ++ x :: Y')) = Done y) by (rewrite V1; apply aref_app; reflexivity).
        assert (A2 : aref v (len (P ++ L) + len X) = Done x) by (rewrite V2; apply aref_app; lens; lia).
        assert (A3 : aset v (len (P ++ L ++ X ++ x :: Y')) x = Done ((P ++ L ++ X ++ x :: Y') ++ x :: M2 ++ R ++ Q))
          by (rewrite V1; apply aset_app; reflexivity).
        rewrite A1. cbn [bind]. rewrite A2. cbn [bind]. rewrite A3. cbn [bind].
        replace ((P ++ L ++ X ++ x :: Y') ++ x :: M2 ++ R ++ Q) with ((P ++ L ++ X) ++ x :: (Y' ++ x :: M2 ++ R ++ Q))
          by (rewrite <- !app_assoc; reflexivity).
        rewrite aset_app by (lens; lia). cbn [bind].
        destruct (IH P (L ++ X ++ [y]) Y' (x :: M2 ++ R) Q ((P ++ L ++ X) ++ y :: Y' ++ x :: M2 ++ R ++ Q))
          as (L' & R' & EE & FL' & FR' & PP & (L2 & EL2) & (R2 & ER2)).
        { rewrite <- !app_assoc. cbn [app]. rewrite <- !app_assoc. reflexivity. }
        { rewrite EM in F. rewrite !app_length in F. cbn [length] in F. lia. }
        { destruct L; discriminate. }
        { apply Forall_app. split; [exact FL|]. apply Forall_app. split; [exact FX|]. constructor; [exact By|constructor]. }
        { constructor; [exact Nx|]. apply Forall_app. split; assumption. }
        exists L', R'. split.
        { rewrite <- EE. f_equal; lens; lia. }
        split; [exact FL'|]. split; [exact FR'|]. split.
        { rewrite <- PP, EM. rewrite <- !app_assoc. apply Permutation_app_head. apply Permutation_app_head. cbn [app].
          apply Permutation_trans with (y :: x :: Y' ++ M2 ++ R).
          - apply Permutation_trans with (x :: y :: Y' ++ M2 ++ R); [apply perm_skip; apply Permutation_sym; apply Permutation_middle|apply perm_swap].
          - apply perm_skip. apply Permutation_middle. }
        split; [exists ((X ++ [y]) ++ L2); rewrite EL2, <- !app_assoc; reflexivity|].
        exists (R2 ++ x :: M2). rewrite ER2, <- !app_assoc. reflexivity.
Qed.

Lemma part_first d P M0 Q v fuel : lt d d = false -> v = P ++ (d :: M0) ++ Q -> (length M0 < fuel)%nat ->
  (part lt (S fuel) v (len P) (len P) (len P + len (d :: M0) - 1) d = Done None /\ Forall (notbelow d) M0) \/
  (exists L' R', part lt (S fuel) v (len P) (len P) (len P + len (d :: M0) - 1) d = Done (Some (P ++ L' ++ R' ++ Q, len P + len L')) /\
     Forall (below d) L' /\ Forall (notbelow d) R' /\ Permutation (d :: M0) (L' ++ R') /\ L' <> [] /\ R' <> []).
Proof.
  intros Ir EV F. cbn [part]. pose proof (len_pos M0) as HM. pose proof (len_pos P) as HP.
  destruct (len P >? len P + len (d :: M0) - 1) eqn:G; [lens; lia|].
  assert (LM : (length (d :: M0) < S (S (length v)))%nat) by (rewrite EV, !app_length; cbn [length]; lia).
  destruct (down_ok d (d :: M0) (S (S (length v))) P Q LM) as [[FM E]|(M1 & y & M2 & EM & By & F2 & E)];
    rewrite <- EV in E; rewrite E; cbn [bind].
  - left. destruct (Z.ltb_spec (len P - 1) (len P)); [|lia]. split; [reflexivity|]. inversion FM; assumption.
  - right. pose proof (len_pos M1). destruct (Z.ltb_spec (len P + len M1) (len P)); [lia|].
    destruct M1 as [|d' M1]; cbn [app] in EM; inversion EM; subst.
    { unfold below in By. congruence. }
    rename d' into d. set (v := P ++ (d :: M1 ++ y :: M2) ++ Q) in *.
    assert (V1 : v = (P ++ d :: M1) ++ y :: (M2 ++ Q)).
    { unfold v. rewrite <- !app_assoc. cbn [app]. rewrite <- app_assoc. reflexivity. }
    assert (V2 : v = P ++ d :: (M1 ++ y :: M2 ++ Q)).
    { rewrite V1. rewrite <- app_assoc. reflexivity. }
    assert (A2 : aref v (len P) = Done d) by (rewrite V2; apply aref_app; reflexivity).
    assert (U : up lt (S (S (length v))) v (len P) (len P + len (d :: M1)) d = Done (len P)).
    { change (up lt (S (S (length v))) v (len P) (len P + len (d :: M1)) d) with
          (if len P >? len P + len (d :: M1) then Done (len P) else
             bind (aref v (len P)) (fun x => if lt x d then up lt (S (length v)) v (len P + 1) (len P + len (d :: M1)) d else Done (len P))).
      destruct (len P >? len P + len (d :: M1)) eqn:G'; [reflexivity|]. rewrite A2. cbn [bind]. rewrite Ir. reflexivity. }
    rewrite U. cbn [bind]. destruct (len P >? len P + len (d :: M1)) eqn:G'; [lia|].
    assert (A1 : aref v (len P + len (d :: M1)) = Done y) by (rewrite V1; apply aref_app; lens; lia).
    assert (A3 : aset v (len P + len (d :: M1)) d = Done ((P ++ d :: M1) ++ d :: M2 ++ Q)) by (rewrite V1; apply aset_app; lens; lia).
    rewrite A1. cbn [bind]. rewrite A2. cbn [bind]. rewrite A3. cbn [bind].
    replace ((P ++ d :: M1) ++ d :: M2 ++ Q) with (P ++ d :: (M1 ++ d :: M2 ++ Q)) by (rewrite <- app_assoc; reflexivity).
    rewrite aset_app by reflexivity. cbn [bind].
    destruct (part_later d fuel P [y] M1 (d :: M2) Q (P ++ y :: M1 ++ d :: M2 ++ Q)) as (L' & R' & EE & FL' & FR' & PP & (L2 & EL2) & (R2 & ER2)).
    + reflexivity.
    + rewrite app_length in F. cbn [length] in F. lia.
    + discriminate.
    + constructor; [exact By|constructor].
    + constructor; [exact Ir|exact F2].
    + exists L', R'. split; [rewrite <- EE; f_equal; lens; lia|]. split; [exact FL'|]. split; [exact FR'|]. split.
      * rewrite <- PP. cbn [app]. apply Permutation_trans with (d :: y :: M1 ++ M2).
        { apply perm_skip. apply Permutation_sym. apply Permutation_middle. }
        rewrite perm_swap. apply perm_skip. apply Permutation_middle.
      * rewrite EL2, ER2. split; [discriminate|]. destruct R2; discriminate.
Qed.

(** * The result *)

Hypothesis irreflexive : forall x, lt x x = false.
Hypothesis transitive : forall x y z, lt x y = true -> lt y z = true -> lt x z = true.

(** No element comes before an earlier one. *)
Definition ordered (v : list A) : Prop := StronglySorted (fun a b => lt b a = false) v.

Lemma ordered_app a b : ordered a -> ordered b -> (forall x y, In x a -> In y b -> lt y x = false) -> ordered (a ++ b).
Proof.
  intros Ha Hb H. induction Ha as [|x a Ha IH F]; [exact Hb|]. cbn [app]. constructor.
  - apply IH. intros u w Hu Hw. apply H; [right; exact Hu|exact Hw].
  - apply Forall_app. split; [exact F|]. apply Forall_forall. intros y Hy. apply H; [left; reflexivity|exact Hy].
Qed.

Lemma quick_sort_ok : forall n fuel mid P Q, (length mid <= n)%nat -> (n < fuel)%nat ->
  exists mid', quick_sort lt fuel (P ++ mid ++ Q) (len P) (len P + len mid) = Done (P ++ mid' ++ Q) /\
    Permutation mid mid' /\ ordered mid'.
Proof.
  induction n as [|n IH]; intros fuel mid P Q L F; (destruct fuel as [|fuel]; [lia|]); cbn [quick_sort].
  - destruct mid; [|cbn [length] in L; lia]. lens. destruct (Z.leb_spec (len P + 0) (len P + 1)); [|lia].
    exists []. split; [reflexivity|]. split; constructor.
  - destruct (Z.leb_spec (len P + len mid) (len P + 1)) as [Sm|Sm].
    + exists mid. split; [reflexivity|]. split; [apply Permutation_refl|].
      destruct mid as [|a [|b mid]]; [constructor|constructor; constructor|lens; pose proof (len_pos mid); lia].
    + destruct mid as [|d M0]; [lens; lia|].
      change (P ++ (d :: M0) ++ Q) with (P ++ d :: (M0 ++ Q)). rewrite aref_app by reflexivity. cbn [bind].
      change (P ++ d :: M0 ++ Q) with (P ++ (d :: M0) ++ Q). set (v := P ++ (d :: M0) ++ Q).
      assert (LV : (length M0 < S (length v))%nat) by (unfold v; rewrite !app_length; cbn [length]; lia).
      cbn [length] in L.
      destruct (part_first d P M0 Q v (S (length v)) (irreflexive d) eq_refl LV)
        as [[E FM]|(L' & R' & E & FL & FR & PP & NL & NR)]; rewrite E; cbn [bind].
      * destruct (IH fuel M0 (P ++ [d]) Q ltac:(lia) ltac:(lia)) as (mid' & EE & PM & O).
        exists (d :: mid'). split; [|split; [apply perm_skip; exact PM|]].
        { unfold v. replace (P ++ (d :: M0) ++ Q) with ((P ++ [d]) ++ M0 ++ Q) by (rewrite <- app_assoc; reflexivity).
          replace (len P + 1) with (len (P ++ [d])) by (lens; lia).
          replace (len P + len (d :: M0)) with (len (P ++ [d]) + len M0) by (lens; lia). rewrite EE. rewrite <- app_assoc. reflexivity. }
        constructor; [exact O|]. apply Forall_forall. intros x Hx. rewrite Forall_forall in FM. apply FM.
        apply (Permutation_in x (Permutation_sym PM)). exact Hx.
      * assert (LL : length (d :: M0) = (length L' + length R')%nat) by (rewrite (Permutation_length PP), app_length; reflexivity).
        cbn [length] in LL. assert (0 < length L')%nat by (destruct L'; [contradiction|cbn [length]; lia]).
        assert (0 < length R')%nat by (destruct R'; [contradiction|cbn [length]; lia]).
        destruct (IH fuel L' P (R' ++ Q) ltac:(lia) ltac:(lia)) as (l2 & E1 & P1 & O1).
        destruct (IH fuel R' (P ++ l2) Q ltac:(lia) ltac:(lia)) as (r2 & E2 & P2 & O2).
        rewrite E1. cbn [bind]. exists (l2 ++ r2).
        assert (Ll : len L' = len l2) by (unfold len; rewrite (Permutation_length P1); reflexivity).
        assert (Lm : len (d :: M0) = len l2 + len R') by (rewrite <- Ll; unfold len; cbn [length]; lia).
        split; [|split].
        { replace (P ++ l2 ++ R' ++ Q) with ((P ++ l2) ++ R' ++ Q) by (rewrite <- app_assoc; reflexivity).
          replace (len P + len L') with (len (P ++ l2)) by (lens; lia).
          replace (len P + len (d :: M0)) with (len (P ++ l2) + len R') by (rewrite Lm; lens; lia).
          rewrite E2. rewrite <- !app_assoc. reflexivity. }
        { rewrite PP. apply Permutation_app; assumption. }
        apply ordered_app; [exact O1|exact O2|]. intros x y Hx Hy.
        apply (Permutation_in x (Permutation_sym P1)) in Hx. apply (Permutation_in y (Permutation_sym P2)) in Hy.
        rewrite Forall_forall in FL, FR. specialize (FL x Hx). specialize (FR y Hy). unfold below, notbelow in *.
        destruct (lt y x) eqn:B; [|reflexivity]. rewrite (transitive y x d B FL) in FR. discriminate.
Qed.

Theorem qsort_ok v fuel : (length v < fuel)%nat -> exists v', qsort lt fuel v = Done v' /\ Permutation v v' /\ ordered v'.
Proof.
  intros F. destruct (quick_sort_ok (length v) fuel v [] [] (le_n _) F) as (v' & E & P & O).
  exists v'. cbn [app] in E. rewrite !app_nil_r in E. split; [exact E|]. split; assumption.
Qed.
End Proofs.

(** With <= two equal elements are sorted for ever. *)
Lemma qsort_loops_refuted : forall fuel, qsort Z.leb fuel [1; 1] = Loop.
Proof.
  unfold qsort. cbn [length Z.of_nat Pos.of_succ_nat Pos.succ].
  assert (P : part Z.leb 4 [1; 1] 0 0 (2 - 1) 1 = Done (Some ([1; 1], 2))) by (vm_compute; reflexivity).
  induction fuel as [|f IH]; [reflexivity|]. cbn [quick_sort]. cbn [Z.leb Z.add Z.compare Pos.compare Pos.compare_cont].
  change (aref [1; 1] 0) with (Done 1). cbn [bind length]. rewrite P. cbn [bind]. rewrite IH. reflexivity.
Qed.
