(** Specification and proofs for C16 and C17. *)
From Verif Require Export ListModel.

(** [chain h v cells tl]: following cdrs from [v] one meets exactly [cells] and then the word [tl] *)
Fixpoint chain (h : heap) (v : val) (cells : list nat) (tl : val) : Prop :=
  match cells with [] => v = tl | a :: r => v = Ptr a /\ chain h (cdr h a) r tl end.
(** [v] is a proper list made of these cells *)
Definition is_list (h : heap) (v : val) (cells : list nat) : Prop := chain h v cells Nil.
Definition elems (h : heap) (cells : list nat) : list val := map (car h) cells.
Definition allocated (h : heap) (cells : list nat) : Prop := Forall (fun a => a < next h) cells.
(** no existing cell is changed *)
Definition preserves (h h' : heap) : Prop := next h <= next h' /\ forall a, a < next h -> mem h' a = mem h a.
Definition same_outside (cells : list nat) (h h' : heap) : Prop :=
  next h' = next h /\ forall a, ~ In a cells -> mem h' a = mem h a.
Definition not_ptr (v : val) : Prop := match v with Ptr _ => False | _ => True end.

Lemma chain_app : forall h a b v tl, chain h v (a ++ b) tl <-> exists m, chain h v a m /\ chain h m b tl.
Proof.
  induction a as [|x a IH]; intros b v tl; cbn.
  - split; [intro H; exists v; auto|intros [m [-> H]]; exact H].
  - rewrite IH. split.
    + intros [E [m [H1 H2]]]. exists m. auto.
    + intros [m [[E H1] H2]]. split; [exact E|]. exists m. auto.
Qed.

Lemma chain_cdr_ext : forall h h' cells v tl, (forall a, In a cells -> cdr h' a = cdr h a) -> chain h v cells tl -> chain h' v cells tl.
Proof.
  induction cells as [|a r IH]; cbn; intros v tl E H; [exact H|]. destruct H as [-> H]. split; [reflexivity|].
  rewrite E by auto. apply IH; auto.
Qed.

Lemma chain_ext : forall h h' cells v tl, (forall a, In a cells -> mem h' a = mem h a) -> chain h v cells tl -> chain h' v cells tl.
Proof. intros h h' cells v tl E. apply chain_cdr_ext. intros a Ha. unfold cdr. rewrite E by exact Ha. reflexivity. Qed.

Lemma elems_ext : forall h h' cells, (forall a, In a cells -> mem h' a = mem h a) -> elems h' cells = elems h cells.
Proof. intros h h' cells E. apply map_ext_in. intros a Ha. unfold car. rewrite E by exact Ha. reflexivity. Qed.

Lemma chain_det : forall h a b v tl, not_ptr tl -> chain h v a tl -> chain h v b tl -> a = b.
Proof.
  induction a as [|x a IH]; intros b v tl N H1 H2; destruct b as [|y b]; cbn in *; auto.
  - subst v. destruct H2 as [-> _]. contradiction.
  - subst v. destruct H1 as [-> _]. contradiction.
  - destruct H1 as [-> H1], H2 as [E H2]. injection E as <-. f_equal. eapply IH; eauto.
Qed.

Lemma chain_nodup : forall h cells v tl, not_ptr tl -> chain h v cells tl -> NoDup cells.
Proof.
  induction cells as [|x r IH]; intros v tl N H; [constructor|]. destruct H as [-> H].
  constructor; [|eapply IH; eauto]. intro Hi. apply in_split in Hi. destruct Hi as [a [b ->]].
  assert (H' := H). rewrite (chain_app h a (x :: b)) in H'. destruct H' as [m [_ [-> Hb]]].
  pose proof (chain_det _ _ _ _ _ N H Hb) as E. apply (f_equal (@length nat)) in E. rewrite app_length in E. cbn in E. lia.
Qed.

Lemma preserves_refl : forall h, preserves h h.
Proof. split; auto. Qed.
Lemma preserves_trans : forall a b c, preserves a b -> preserves b c -> preserves a c.
Proof. intros a b c [A1 A2] [B1 B2]. split; [lia|]. intros x Hx. rewrite B2 by lia. apply A2. exact Hx. Qed.
Lemma preserves_chain : forall h h' v cells tl, preserves h h' -> allocated h cells -> chain h v cells tl -> chain h' v cells tl.
Proof. intros h h' v cells tl [P1 P2] A. apply chain_ext. intros a Ha. apply P2. unfold allocated in A. rewrite Forall_forall in A. auto. Qed.
Lemma preserves_elems : forall h h' cells, preserves h h' -> allocated h cells -> elems h' cells = elems h cells.
Proof. intros h h' cells [P1 P2] A. apply elems_ext. intros a Ha. apply P2. unfold allocated in A. rewrite Forall_forall in A. auto. Qed.
Lemma preserves_allocated : forall h h' cells, preserves h h' -> allocated h cells -> allocated h' cells.
Proof. intros h h' cells [P1 _]. apply Forall_impl. intros; lia. Qed.

(** ** walking *)
Lemma skip_chain : forall i h cells v tl, not_ptr tl -> chain h v cells tl -> chain h (skip i h v) (skipn i cells) tl.
Proof.
  induction i as [|i IH]; intros h cells v tl N H; [exact H|]. destruct cells as [|a r]; cbn in *.
  - subst v. destruct tl; try contradiction; reflexivity.
  - destruct H as [-> H]. apply IH; auto.
Qed.

Lemma to_int_small : forall z, (0 <= z < 2147483648)%Z -> to_int z = z.
Proof. intros z H. unfold to_int. rewrite Z.mod_small by lia. lia. Qed.

Lemma nth_skipn : forall {A} i (l : list A) d, nth i l d = nth 0 (skipn i l) d.
Proof. induction i; destruct l; cbn; auto. Qed.

Lemma NTH_ok : forall h v cells i, is_list h v cells -> (0 <= i < 2147483648)%Z ->
  NTH h i v = Ret (nth (Z.to_nat i) (elems h cells) Nil).
Proof.
  intros h v cells i L H. unfold NTH. rewrite (to_int_small i H). destruct (Z.ltb_spec i 0); [lia|].
  pose proof (skip_chain (Z.to_nat i) h cells v Nil Logic.I L) as S.
  rewrite nth_skipn. unfold elems. rewrite skipn_map.
  destruct (skipn (Z.to_nat i) cells) as [|a r]; cbn in S.
  - rewrite S. reflexivity.
  - destruct S as [-> _]. reflexivity.
Qed.

Lemma NTHCDR_ok : forall h v cells i, is_list h v cells -> (0 <= i < 2147483648)%Z ->
  exists r, NTHCDR h i v = Ret r /\ is_list h r (skipn (Z.to_nat i) cells).
Proof.
  intros h v cells i L H. unfold NTHCDR. rewrite (to_int_small i H). destruct (Z.ltb_spec i 0); [lia|].
  pose proof (skip_chain (Z.to_nat i) h cells v Nil Logic.I L) as S.
  destruct v as [|a|n].
  - exists Nil. split; [reflexivity|]. destruct cells as [|a r]; [|destruct L; discriminate]. rewrite skipn_nil. reflexivity.
  - eexists. split; [reflexivity|]. exact S.
  - destruct cells as [|b r]; [discriminate L|destruct L; discriminate].
Qed.

Lemma last_loop_ok : forall cells fuel h v, is_list h v cells -> length cells < fuel ->
  exists r, last_loop fuel h v = Ret r /\ is_list h r (skipn (length cells - 1) cells).
Proof.
  induction cells as [|a r IH]; intros fuel h v L F; destruct fuel as [|f]; cbn [length] in F; try lia.
  - cbn in L. subst v. exists Nil. split; reflexivity.
  - destruct L as [-> L]. cbn [last_loop]. destruct r as [|b r].
    + cbn in L. rewrite L. exists (Ptr a). split; [reflexivity|]. cbn. split; [reflexivity|exact L].
    + destruct L as [E L]. rewrite E. destruct (IH f h (Ptr b)) as [x [X1 X2]]; [split; auto|cbn in *; lia|].
      exists x. split; [exact X1|]. cbn [length] in X2 |- *. replace (S (S (length r)) - 1) with (S (S (length r) - 1)) by lia. exact X2.
Qed.

Lemma push_cars_ok : forall cells fuel h v tl stk, not_ptr tl -> chain h v cells tl -> length cells <= fuel ->
  push_cars fuel h v stk = Ret (rev (elems h cells) ++ stk, tl).
Proof.
  induction cells as [|a r IH]; intros fuel h v tl stk N L F.
  - cbn in L. subst v. destruct fuel, tl; try contradiction; reflexivity.
  - destruct L as [-> L]. cbn [length] in F. destruct fuel as [|f]; [lia|]. cbn [push_cars].
    rewrite (IH f h (cdr h a) tl) by (auto; lia). cbn. rewrite <- app_assoc. reflexivity.
Qed.

Lemma push_cells_ok : forall cells fuel h v stk, is_list h v cells -> length cells <= fuel ->
  push_cells fuel h v stk = Ret (rev cells ++ stk).
Proof.
  induction cells as [|a r IH]; intros fuel h v stk L F.
  - cbn in L. subst v. destruct fuel; reflexivity.
  - destruct L as [-> L]. cbn [length] in F. destruct fuel as [|f]; [lia|]. cbn [push_cells].
    rewrite (IH f h (cdr h a)) by (auto; lia). cbn. rewrite <- app_assoc. reflexivity.
Qed.

Lemma length_loop_ok : forall cells fuel h v n, is_list h v cells -> length cells <= fuel -> length_loop fuel h v n = Ret (length cells + n).
Proof.
  induction cells as [|a r IH]; intros fuel h v n L F.
  - cbn in L. subst v. destruct fuel; reflexivity.
  - destruct L as [-> L]. cbn [length] in F. destruct fuel as [|f]; [lia|]. cbn [length_loop]. rewrite (IH f) by (auto; lia). f_equal. cbn. lia.
Qed.
Lemma LENGTH_ok : forall h v cells fuel, is_list h v cells -> length cells <= fuel -> LENGTH fuel h v = Ret (length cells).
Proof.
  intros h v cells fuel L F. unfold LENGTH. destruct v as [|a|n].
  - rewrite (length_loop_ok cells) by auto. f_equal. lia.
  - rewrite (length_loop_ok cells) by auto. f_equal. lia.
  - destruct cells as [|b r]; [discriminate L|destruct L; discriminate].
Qed.

(** ** building *)
Lemma cons_facts : forall h a d h1 r, cons_ h a d = (h1, r) ->
  r = Ptr (next h) /\ mem h1 (next h) = (a, d) /\ preserves h h1 /\ next h1 = S (next h).
Proof.
  intros h a d h1 r E. unfold cons_ in E. injection E as <- <-. cbn. rewrite Nat.eqb_refl.
  split; [reflexivity|]. split; [reflexivity|]. split; [|reflexivity]. split; cbn; [lia|]. intros x Hx.
  destruct (Nat.eqb_spec x (next h)); [lia|reflexivity].
Qed.

(** [new] are cells allocated between the two heaps *)
Definition fresh_between (h h' : heap) (new : list nat) : Prop := Forall (fun a => next h <= a < next h') new.

Lemma cons_popped_ok : forall stk h r, exists h' r' new, cons_popped h stk r = (h', r') /\ chain h' r' new r /\
  elems h' new = rev stk /\ preserves h h' /\ fresh_between h h' new.
Proof.
  induction stk as [|x s IH]; intros h r.
  - exists h, r, []. cbn. repeat split; auto. constructor.
  - cbn [cons_popped]. destruct (cons_ h x r) as [h1 r1] eqn:E. destruct (cons_facts _ _ _ _ _ E) as [-> [M [P N]]].
    destruct (IH h1 (Ptr (next h))) as [h' [r' [new [E' [C [El [P' F]]]]]]].
    exists h', r', (new ++ [next h]). split; [exact E'|].
    assert (M' : mem h' (next h) = (x, r)). { rewrite (proj2 P') by lia. exact M. }
    split; [|split; [|split]].
    + apply chain_app. exists (Ptr (next h)). split; [exact C|]. cbn. unfold cdr. rewrite M'. auto.
    + unfold elems in *. rewrite map_app, El. cbn. unfold car. rewrite M'. reflexivity.
    + eapply preserves_trans; eauto.
    + apply Forall_app. split.
      * eapply Forall_impl; [|exact F]. cbn. intros a Ha. lia.
      * destruct P' as [P1 _]. constructor; [lia|constructor].
Qed.

Lemma fresh_left : forall a b c new, next a <= next b -> fresh_between b c new -> fresh_between a c new.
Proof. intros a b c new H. apply Forall_impl. cbn. intros; lia. Qed.
Lemma fresh_right : forall a b c new, next b <= next c -> fresh_between a b new -> fresh_between a c new.
Proof. intros a b c new H. apply Forall_impl. cbn. intros; lia. Qed.
Lemma fresh_allocated : forall h h' new, fresh_between h h' new -> allocated h' new.
Proof. intros h h' new. apply Forall_impl. cbn. intros; lia. Qed.

Lemma append_loop_ok : forall rargs css h r fuel,
  Forall2 (is_list h) rargs css -> Forall (allocated h) css -> Forall (fun cs => length cs <= fuel) css ->
  exists h' r' new, append_loop fuel h rargs r = Ret (h', r') /\ chain h' r' new r /\
    elems h' new = concat (map (elems h) (rev css)) /\ preserves h h' /\ fresh_between h h' new.
Proof.
  induction rargs as [|v rest IH]; intros css h r fuel L A F; inversion L; subst; clear L.
  - exists h, r, []. cbn. repeat split; auto. constructor.
  - rename y into cs. rename l' into css. inversion_clear A as [|? ? A1 A2]. inversion_clear F as [|? ? F1 F2].
    assert (Step : append_loop fuel h (v :: rest) r =
      (do (stk, _) <- push_cars fuel h v []; let '(h1, r1) := cons_popped h stk r in append_loop fuel h1 rest r1)).
    { destruct v as [|a|n]; try reflexivity. destruct cs; [discriminate H1|destruct H1; discriminate]. }
    rewrite Step, (push_cars_ok cs fuel h v Nil []) by (cbn; auto). cbn [bind]. rewrite app_nil_r.
    destruct (cons_popped_ok (rev (elems h cs)) h r) as [h1 [r1 [new1 [E1 [C1 [El1 [P1 F1']]]]]]]. rewrite E1.
    destruct (IH css h1 r1 fuel) as [h2 [r2 [new2 [E2 [C2 [El2 [P2 F2']]]]]]]; auto.
    + clear -H3 A2 P1. induction H3; [constructor|]. inversion_clear A2. constructor; auto. eapply preserves_chain; eauto.
    + eapply Forall_impl; [|exact A2]. intros cs' X. eapply preserves_allocated; eauto.
    + exists h2, r2, (new2 ++ new1). split; [exact E2|].
      assert (An : allocated h1 new1) by (eapply fresh_allocated; eauto).
      split; [|split; [|split]].
      * apply chain_app. exists r1. split; [exact C2|]. eapply preserves_chain; eauto.
      * assert (El1' : elems h2 new1 = elems h cs). { rewrite (preserves_elems h1 h2 new1 P2 An), El1, rev_involutive. reflexivity. }
        unfold elems at 1. rewrite map_app. fold (elems h2 new2). fold (elems h2 new1). rewrite El2, El1'.
        cbn [rev]. rewrite map_app, concat_app. cbn. rewrite app_nil_r. f_equal. f_equal. apply map_ext_in. intros cs' Hc.
        apply preserves_elems; auto. apply in_rev in Hc. rewrite Forall_forall in A2. auto.
      * eapply preserves_trans; eauto.
      * apply Forall_app. split; [eapply fresh_left; [|exact F2']; apply P1|]. eapply fresh_right; [|exact F1']. apply P2.
Qed.

Lemma Forall2_rev : forall {A B} (R : A -> B -> Prop) a b, Forall2 R a b -> Forall2 R (rev a) (rev b).
Proof. intros A B R a b H. induction H; cbn; [constructor|]. apply Forall2_app; auto. Qed.

Lemma APPEND_ok : forall h args css last fuel,
  Forall2 (is_list h) args css -> Forall (allocated h) css -> Forall (fun cs => length cs <= fuel) css ->
  exists h' r new, APPEND fuel h (args ++ [last]) = Ret (h', r) /\ chain h' r new last /\
    elems h' new = concat (map (elems h) css) /\ preserves h h' /\ fresh_between h h' new.
Proof.
  intros h args css last fuel L A F. unfold APPEND. rewrite rev_app_distr. cbn [rev app].
  destruct (append_loop_ok (rev args) (rev css) h last fuel) as [h' [r [new [E [C [El P]]]]]].
  - apply Forall2_rev. exact L.
  - apply Forall_rev. exact A.
  - apply Forall_rev. exact F.
  - exists h', r, new. rewrite rev_involutive in El. auto.
Qed.

Lemma list_cases : forall h v cells, is_list h v cells -> (v = Nil /\ cells = []) \/ exists a r, v = Ptr a /\ cells = a :: r.
Proof.
  intros h v cells L. destruct cells as [|a r]; [left; cbn in L; auto|]. right. exists a, r. destruct L; auto.
Qed.

Lemma rev_skipn : forall {A} n (l : list A), rev (skipn n l) = firstn (length l - n) (rev l).
Proof.
  intros A n l. destruct (Nat.le_gt_cases n (length l)) as [H|H].
  - rewrite <- (firstn_skipn n l) at 3. rewrite rev_app_distr, firstn_app.
    rewrite rev_length, skipn_length, Nat.sub_diag. cbn. rewrite app_nil_r.
    rewrite firstn_all2; [reflexivity|]. rewrite rev_length, skipn_length. lia.
  - rewrite skipn_all2 by lia. replace (length l - n) with 0 by lia. reflexivity.
Qed.

Lemma BUTLAST_ok : forall h v cells n fuel, is_list h v cells -> length cells <= fuel -> (0 <= n < 2147483648)%Z ->
  exists h' r new, BUTLAST fuel h v n = Ret (h', r) /\ is_list h' r new /\
    elems h' new = firstn (length cells - Z.to_nat n) (elems h cells) /\ preserves h h' /\ fresh_between h h' new.
Proof.
  intros h v cells n fuel L F H. unfold BUTLAST. rewrite (to_int_small n H).
  destruct (list_cases h v cells L) as [[-> ->]|[a [r [-> ->]]]].
  - exists h, Nil, []. cbn [length] in *. rewrite firstn_nil. cbn. repeat split; auto. constructor.
  - destruct (Z.ltb_spec n 0); [lia|]. rewrite (push_cars_ok (a :: r) fuel h (Ptr a) Nil []) by (cbn; auto). cbn [bind]. rewrite app_nil_r.
    destruct (cons_popped_ok (skipn (Nat.min (length (rev (elems h (a :: r)))) (Z.to_nat n)) (rev (elems h (a :: r)))) h Nil) as [h' [r' [new [E [C [El [P Fr]]]]]]].
    rewrite E. exists h', r', new. split; [reflexivity|]. split; [exact C|]. split; [|auto]. rewrite El, rev_skipn, rev_involutive, rev_length.
    unfold elems at 1 2. rewrite map_length. f_equal. lia.
Qed.

Lemma reverse_loop_ok : forall cells fuel h v r acc, is_list h v cells -> allocated h cells -> chain h r acc Nil -> allocated h acc -> length cells <= fuel ->
  exists h' r' new, reverse_loop fuel h v r = Ret (h', r') /\ is_list h' r' (new ++ acc) /\ elems h' new = rev (elems h cells) /\ preserves h h' /\ fresh_between h h' new.
Proof.
  induction cells as [|a rest IH]; intros fuel h v r acc L A C Aa F.
  - cbn in L. subst v. exists h, r, []. destruct fuel; cbn; repeat split; auto; constructor.
  - destruct L as [-> L]. cbn [length] in F. destruct fuel as [|f]; [lia|]. cbn [reverse_loop]. inversion_clear A as [|? ? A1 A2].
    destruct (cons_ h (car h a) r) as [h1 r1] eqn:E. destruct (cons_facts _ _ _ _ _ E) as [-> [M [P N]]].
    destruct (IH f h1 (cdr h a) (Ptr (next h)) (next h :: acc)) as [h2 [r2 [new [E2 [C2 [El2 [P2 F2]]]]]]].
    + eapply preserves_chain; eauto.
    + eapply preserves_allocated; eauto.
    + cbn. split; [reflexivity|]. unfold cdr. rewrite M. eapply preserves_chain; eauto.
    + constructor; [lia|]. eapply preserves_allocated; eauto.
    + lia.
    + exists h2, r2, (new ++ [next h]). split; [exact E2|]. rewrite <- app_assoc. cbn. split; [exact C2|]. split; [|split].
      * unfold elems in *. rewrite map_app, El2. cbn. f_equal; [f_equal; apply (preserves_elems h h1 rest); auto|].
        f_equal. unfold car at 1. rewrite (proj2 P2) by lia. rewrite M. reflexivity.
      * eapply preserves_trans; eauto.
      * apply Forall_app. split; [eapply fresh_left; [|exact F2]; lia|]. destruct P2. constructor; [lia|constructor].
Qed.

Lemma REVERSE_ok : forall h v cells fuel, is_list h v cells -> allocated h cells -> length cells <= fuel ->
  exists h' r new, REVERSE fuel h v = Ret (h', r) /\ is_list h' r new /\ elems h' new = rev (elems h cells) /\ preserves h h' /\ fresh_between h h' new.
Proof.
  intros h v cells fuel L A F. destruct (reverse_loop_ok cells fuel h v Nil [] L A eq_refl (Forall_nil _) F) as [h' [r [new [E [C X]]]]].
  rewrite app_nil_r in C. exists h', r, new. split; [|auto]. unfold REVERSE. destruct v as [|a|n]; auto.
  destruct cells; [discriminate L|destruct L; discriminate].
Qed.

Lemma COPYSEQ_ok : forall h v cells fuel, is_list h v cells -> length cells <= fuel ->
  exists h' r new, COPYSEQ fuel h v = Ret (h', r) /\ is_list h' r new /\ elems h' new = elems h cells /\ preserves h h' /\ fresh_between h h' new.
Proof.
  intros h v cells fuel L F. destruct (list_cases h v cells L) as [[-> ->]|[a [r [-> ->]]]].
  - exists h, Nil, []. cbn. repeat split; auto. constructor.
  - unfold COPYSEQ. rewrite (push_cars_ok (a :: r) fuel h (Ptr a) Nil []) by (cbn; auto). cbn [bind]. rewrite app_nil_r.
    destruct (cons_popped_ok (rev (elems h (a :: r))) h Nil) as [h' [r' [new [E [C [El X]]]]]]. rewrite E.
    exists h', r', new. rewrite rev_involutive in El. auto.
Qed.

(** ** destructive functions *)
Lemma set_car_facts : forall h a x, let h1 := set_car h a x in
  (forall b, cdr h1 b = cdr h b) /\ (forall b, b <> a -> mem h1 b = mem h b) /\ car h1 a = x /\ next h1 = next h.
Proof.
  intros h a x. cbn. split; [|split; [|split; [|reflexivity]]].
  - intro b. unfold set_car, set_mem, cdr. cbn. destruct (Nat.eqb_spec b a); subst; reflexivity.
  - intros b N. unfold set_car, set_mem. cbn. destruct (Nat.eqb_spec b a); [contradiction|reflexivity].
  - unfold set_car, set_mem, car. cbn. rewrite Nat.eqb_refl. reflexivity.
Qed.
Lemma set_cdr_facts : forall h a x, let h1 := set_cdr h a x in
  (forall b, car h1 b = car h b) /\ (forall b, b <> a -> mem h1 b = mem h b) /\ cdr h1 a = x /\ next h1 = next h.
Proof.
  intros h a x. cbn. split; [|split; [|split; [|reflexivity]]].
  - intro b. unfold set_cdr, set_mem, car. cbn. destruct (Nat.eqb_spec b a); subst; reflexivity.
  - intros b N. unfold set_cdr, set_mem. cbn. destruct (Nat.eqb_spec b a); [contradiction|reflexivity].
  - unfold set_cdr, set_mem, cdr. cbn. rewrite Nat.eqb_refl. reflexivity.
Qed.

Lemma write_cars_ok : forall cells h v tl stk, chain h v cells tl -> NoDup cells -> length stk = length cells ->
  exists h', write_cars h v stk = Ret h' /\ (forall b, cdr h' b = cdr h b) /\ same_outside cells h h' /\ elems h' cells = stk.
Proof.
  induction cells as [|a r IH]; intros h v tl stk C D Ln; destruct stk as [|x s]; cbn [length] in Ln; try lia.
  - exists h. cbn. split; [reflexivity|]. split; [reflexivity|]. split; [split; auto|reflexivity].
  - destruct C as [-> C]. inversion_clear D as [|? ? Na D1]. cbn [write_cars]. destruct (set_car_facts h a x) as [S1 [S2 [S3 S4]]].
    set (h1 := set_car h a x) in *. rewrite S1.
    destruct (IH h1 (cdr h a) tl s) as [h' [E [Cd [[Nx So] El]]]]; auto.
    + eapply chain_cdr_ext; [|exact C]. auto.
    + exists h'. split; [exact E|]. split; [intro b; rewrite Cd; apply S1|]. split; [split|].
      * congruence.
      * intros b Hb. rewrite So by (intro; apply Hb; right; assumption). apply S2. intros ->. apply Hb. left. reflexivity.
      * cbn. f_equal; [|exact El]. unfold car. rewrite So by exact Na. exact S3.
Qed.

Lemma NREVERSE_ok : forall h v cells fuel, is_list h v cells -> length cells <= fuel ->
  exists h', NREVERSE fuel h v = Ret (h', v) /\ is_list h' v cells /\ elems h' cells = rev (elems h cells) /\ same_outside cells h h'.
Proof.
  intros h v cells fuel L F. destruct (list_cases h v cells L) as [[-> ->]|[a [r [-> ->]]]].
  - exists h. cbn. repeat split; auto.
  - unfold NREVERSE. rewrite (push_cars_ok (a :: r) fuel h (Ptr a) Nil []) by (cbn; auto). cbn [bind]. rewrite app_nil_r.
    destruct (write_cars_ok (a :: r) h (Ptr a) Nil (rev (elems h (a :: r)))) as [h' [E [Cd [So El]]]]; auto.
    + eapply chain_nodup; eauto. exact Logic.I.
    + rewrite rev_length. unfold elems. apply map_length.
    + rewrite E. cbn [bind]. exists h'. split; [reflexivity|]. split; [|split; [exact El|exact So]]. eapply chain_cdr_ext; [|exact L]. auto.
Qed.

Lemma copy_list_ok : forall h v cells fuel, is_list h v cells -> allocated h cells -> length cells <= fuel ->
  exists h' r new, copy_list fuel h v = Ret (h', r) /\ is_list h' r new /\ elems h' new = elems h cells /\ preserves h h' /\ fresh_between h h' new.
Proof.
  intros h v cells fuel L A F. unfold copy_list.
  destruct (REVERSE_ok h v cells fuel L A F) as [h1 [r [new [E [C [El [P Fr]]]]]]]. rewrite E. cbn [bind].
  assert (Ln : length new = length cells). { apply (f_equal (@length val)) in El. rewrite rev_length in El. unfold elems in El. rewrite !map_length in El. exact El. }
  destruct (NREVERSE_ok h1 r new fuel C ltac:(lia)) as [h2 [E2 [C2 [El2 [Nx So]]]]]. rewrite E2. exists h2, r, new.
  split; [reflexivity|]. split; [exact C2|]. split; [rewrite El2, El, rev_involutive; reflexivity|]. split.
  - split; [rewrite Nx; apply P|]. intros b Hb. rewrite So; [apply P; exact Hb|]. intro Hi. unfold fresh_between in Fr. rewrite Forall_forall in Fr. specialize (Fr b Hi). lia.
  - eapply fresh_right; [|exact Fr]. lia.
Qed.

Lemma last_cell_ok : forall cells fuel h a tl, not_ptr tl -> chain h (Ptr a) (a :: cells) tl -> length cells < fuel ->
  exists pre l, a :: cells = pre ++ [l] /\ last_cell fuel h a = Ret l.
Proof.
  induction cells as [|b r IH]; intros fuel h a tl N [_ C] F; destruct fuel as [|f]; cbn [length] in F; try lia; cbn [last_cell].
  - cbn in C. rewrite C. exists [], a. split; [reflexivity|]. destruct tl; try contradiction; reflexivity.
  - destruct C as [E C]. rewrite E. destruct (IH f h b tl N) as [pre [l [E1 E2]]]; [split; auto|cbn in F; lia|].
    exists (a :: pre), l. rewrite E1. auto.
Qed.

Lemma NoDup_app_inv : forall {A} (a b : list A), NoDup (a ++ b) -> NoDup a /\ NoDup b /\ (forall x, In x a -> ~ In x b).
Proof.
  induction a as [|x a IH]; cbn; intros b D; [split; [constructor|auto]|]. inversion_clear D as [|? ? N D1].
  destruct (IH b D1) as [A1 [A2 A3]]. split; [|split; [exact A2|]].
  - constructor; auto. intro H. apply N. apply in_or_app. auto.
  - intros y [<-|Hy]; [intro H; apply N; apply in_or_app; auto|auto].
Qed.

Lemma NoDup_app_intro : forall {A} (a b : list A), NoDup a -> NoDup b -> (forall x, In x a -> ~ In x b) -> NoDup (a ++ b).
Proof.
  induction a as [|x a IH]; cbn; intros b Da Db H; [exact Db|]. inversion_clear Da as [|? ? N D1]. constructor.
  - intro Hi. apply in_app_or in Hi. destruct Hi as [Hi|Hi]; [contradiction|]. apply (H x); auto.
  - apply IH; auto.
Qed.

Lemma nconc_loop_ok : forall rargs css h a acc fuel,
  Forall2 (is_list h) rargs css -> is_list h a acc -> NoDup (concat css ++ acc) -> Forall (fun cs => length cs <= fuel) css ->
  exists h' r, nconc_loop fuel h rargs a = Ret (h', r) /\ is_list h' r (concat (rev css) ++ acc) /\
    (forall b, car h' b = car h b) /\ same_outside (concat css) h h'.
Proof.
  induction rargs as [|v rest IH]; intros css h a acc fuel L C D F; inversion L; subst; clear L.
  - exists h, a. cbn. split; [reflexivity|]. split; [exact C|]. split; [auto|split; auto].
  - rename y into cs. rename l' into css. inversion_clear F as [|? ? F1 F2].
    destruct (list_cases h v cs H1) as [[-> ->]|[c [r [-> ->]]]].
    + cbn [nconc_loop]. destruct (IH css h a acc fuel H3 C D F2) as [h' [r [E [C' [X Y]]]]].
      exists h', r. split; [exact E|]. cbn. rewrite concat_app. cbn. rewrite app_nil_r. auto.
    + cbn [nconc_loop]. destruct (last_cell_ok r fuel h c Nil Logic.I H1) as [pre [l [E1 E2]]]; [cbn in F1; lia|].
      rewrite E2. cbn [bind]. destruct (set_cdr_facts h l a) as [S1 [S2 [S3 S4]]]. set (h1 := set_cdr h l a) in *.
      cbn [concat] in D. rewrite E1 in *. rewrite <- app_assoc in D. destruct (NoDup_app_inv _ _ D) as [D1 [D2 D3]].
      destruct (NoDup_app_inv _ _ D2) as [D4 [D5 D6]].
      assert (Lin : In l (pre ++ [l])) by (apply in_or_app; right; left; reflexivity).
      assert (Out : forall b, In b (concat css ++ acc) -> mem h1 b = mem h b).
      { intros b Hb. apply S2. intros ->. exact (D3 l Lin Hb). }
      assert (Cc : is_list h1 (Ptr c) ((pre ++ [l]) ++ acc)).
      { unfold is_list in H1. apply chain_app in H1. destruct H1 as [m [H1 [-> H2]]]. unfold is_list. rewrite <- app_assoc. apply chain_app. exists (Ptr l). split.
        - eapply chain_cdr_ext; [|exact H1]. intros b Hb. unfold cdr. rewrite S2; [reflexivity|]. intros ->.
          destruct (NoDup_app_inv _ _ D1) as [_ [_ X]]. apply (X l Hb). left. reflexivity.
        - cbn. split; [reflexivity|]. rewrite S3. eapply chain_ext; [|exact C]. intros b Hb. apply Out. apply in_or_app. auto. }
      destruct (IH css h1 (Ptr c) ((pre ++ [l]) ++ acc) fuel) as [h' [r' [E [C' [X Y]]]]]; auto.
      * clear -H3 Out. revert Out. induction H3; intro Out; [constructor|]. constructor.
        -- eapply chain_ext; [|exact H]. intros b Hb. apply Out. cbn. apply in_or_app. left. apply in_or_app. auto.
        -- apply IHForall2. intros b Hb. apply Out. cbn. rewrite <- app_assoc. apply in_or_app. auto.
      * (* NoDup *)
        apply NoDup_app_intro; auto.
        -- apply NoDup_app_intro; auto. intros x Hx Hx'. apply (D3 x Hx). apply in_or_app. auto.
        -- intros x Hx Hx'. apply in_app_or in Hx'. destruct Hx' as [Hx'|Hx']; [|exact (D6 x Hx Hx')].
           apply (D3 x Hx'). apply in_or_app. auto.
      * exists h', r'. split; [exact E|]. split; [cbn; rewrite concat_app; cbn; rewrite app_nil_r, <- app_assoc; exact C'|].
        split; [intro b; rewrite X; apply S1|]. destruct Y as [Y1 Y2]. split; [congruence|].
        intros b Hb. cbn in Hb. rewrite Y2 by (intro; apply Hb; apply in_or_app; auto). apply S2. intros ->. apply Hb. apply in_or_app. auto.
Qed.

Lemma nconc_start_ok : forall rargs css h fuel,
  Forall2 (is_list h) rargs css -> NoDup (concat css) -> Forall (fun cs => length cs <= fuel) css ->
  exists h' r, nconc_start fuel h rargs = Ret (h', r) /\ is_list h' r (concat (rev css)) /\
    (forall b, car h' b = car h b) /\ same_outside (concat css) h h'.
Proof.
  induction rargs as [|v rest IH]; intros css h fuel L D F; inversion L; subst; clear L.
  - exists h, Nil. cbn. split; [reflexivity|]. split; [reflexivity|]. split; [auto|split; auto].
  - rename y into cs. rename l' into css. inversion_clear F as [|? ? F1 F2].
    destruct (list_cases h v cs H1) as [[-> ->]|[c [r [-> ->]]]].
    + cbn [nconc_start]. destruct (IH css h fuel H3 D F2) as [h' [r [E [C' X]]]].
      exists h', r. cbn. rewrite concat_app. cbn. rewrite app_nil_r. auto.
    + cbn [nconc_start]. destruct (nconc_loop_ok rest css h (Ptr c) (c :: r) fuel H3 H1) as [h' [r' [E [C [X [Y1 Y2]]]]]]; auto.
      * cbn [concat] in D. destruct (NoDup_app_inv _ _ D) as [D1 [D2 D3]]. apply NoDup_app_intro; auto.
        intros x Hx Hx'. exact (D3 x Hx' Hx).
      * exists h', r'. split; [exact E|]. split; [cbn; rewrite concat_app; cbn; rewrite app_nil_r; exact C|].
        split; [exact X|]. split; [exact Y1|]. intros b Hb. apply Y2. intro Hi. apply Hb. cbn. right. apply in_or_app. auto.
Qed.

Lemma concat_rev_in : forall {A} (l : list (list A)) x, In x (concat (rev l)) <-> In x (concat l).
Proof.
  intros A l x. rewrite !in_concat. split; intros [y [H1 H2]]; exists y; (split; [|exact H2]); [apply in_rev; exact H1|apply in_rev; rewrite rev_involutive; exact H1].
Qed.
Lemma concat_rev_nodup : forall {A} (l : list (list A)), NoDup (concat l) -> NoDup (concat (rev l)).
Proof.
  induction l as [|a l IH]; cbn; intro D; [constructor|]. destruct (NoDup_app_inv _ _ D) as [D1 [D2 D3]].
  rewrite concat_app. cbn. rewrite app_nil_r. apply NoDup_app_intro; auto. intros x Hx Hx'. apply (D3 x Hx'). apply concat_rev_in. exact Hx.
Qed.

Lemma NCONC_ok : forall h args css fuel,
  Forall2 (is_list h) args css -> NoDup (concat css) -> Forall (fun cs => length cs <= fuel) css ->
  exists h' r, NCONC fuel h args = Ret (h', r) /\ is_list h' r (concat css) /\
    elems h' (concat css) = concat (map (elems h) css) /\ same_outside (concat css) h h'.
Proof.
  intros h args css fuel L D F. destruct (nconc_start_ok (rev args) (rev css) h fuel) as [h' [r [E [C [X [Y1 Y2]]]]]].
  - apply Forall2_rev. exact L.
  - apply concat_rev_nodup. exact D.
  - apply Forall_rev. exact F.
  - rewrite rev_involutive in C. exists h', r. split; [exact E|]. split; [exact C|]. split.
    + unfold elems at 1. rewrite concat_map. f_equal. apply map_ext. intro cs. apply map_ext. exact X.
    + split; [exact Y1|]. intros b Hb. apply Y2. intro Hi. apply Hb. apply concat_rev_in. exact Hi.
Qed.

Lemma NBUTLAST_ok : forall h v cells n fuel, is_list h v cells -> length cells <= fuel -> (0 <= n < 2147483648)%Z ->
  Z.to_nat n < length cells ->
  exists h', NBUTLAST fuel h v n = Ret (h', v) /\ is_list h' v (firstn (length cells - Z.to_nat n) cells) /\
    elems h' (firstn (length cells - Z.to_nat n) cells) = firstn (length cells - Z.to_nat n) (elems h cells) /\ same_outside cells h h'.
Proof.
  intros h v cells n fuel L F H Hn. unfold NBUTLAST. rewrite (to_int_small n H).
  destruct (list_cases h v cells L) as [[-> ->]|[a [r [-> E]]]]; [cbn in Hn; lia|].
  destruct (Z.ltb_spec n 0); [lia|]. rewrite (push_cells_ok cells fuel h (Ptr a) []) by auto. cbn [bind]. rewrite app_nil_r, rev_length.
  set (k := Z.to_nat n) in *. replace (Nat.min (length cells) k) with k by lia.
  assert (Sp : exists pre b post, cells = pre ++ b :: post /\ length post = k /\ nth_error (rev cells) k = Some b /\ firstn (length cells - k) cells = pre ++ [b]).
  { destruct (nth_error (rev cells) k) as [b|] eqn:Eb; [|apply nth_error_None in Eb; rewrite rev_length in Eb; lia].
    apply nth_error_split in Eb. destruct Eb as [l1 [l2 [E1 E2]]]. exists (rev l2), b, (rev l1).
    assert (E3 : cells = rev l2 ++ b :: rev l1).
    { rewrite <- (rev_involutive cells), E1, rev_app_distr. cbn. rewrite <- app_assoc. reflexivity. }
    split; [exact E3|]. split; [rewrite rev_length; exact E2|]. split; [reflexivity|].
    rewrite E3 at 2. replace (rev l2 ++ b :: rev l1) with ((rev l2 ++ [b]) ++ rev l1) by (rewrite <- app_assoc; reflexivity).
    assert (Ln : length cells - k = length (rev l2 ++ [b])).
    { rewrite E3, !app_length. cbn. rewrite (rev_length l1), E2. lia. }
    rewrite Ln, firstn_app, firstn_all, Nat.sub_diag. cbn. apply app_nil_r. }
  destruct Sp as [pre [b [post [E1 [E2 [E3 E4]]]]]]. rewrite E3, E4.
  destruct (set_cdr_facts h b Nil) as [S1 [S2 [S3 S4]]]. set (h1 := set_cdr h b Nil) in *. exists h1. split; [reflexivity|].
  pose proof (chain_nodup h cells (Ptr a) Nil Logic.I L) as D. rewrite E1 in D, L.
  split; [|split].
  - unfold is_list in L. apply chain_app in L. destruct L as [m [L1 [-> L2]]]. apply chain_app. exists (Ptr b). split.
    + eapply chain_ext; [|exact L1]. intros x Hx. apply S2. intros ->. apply NoDup_remove_2 in D. apply D. apply in_or_app. auto.
    + cbn. auto.
  - unfold elems at 2. rewrite firstn_map, E4. apply map_ext. exact S1.
  - split; [exact S4|]. intros x Hx. apply S2. intros ->. apply Hx. rewrite E1. apply in_or_app. right. left. reflexivity.
Qed.

(** ** searching *)
Lemma SUPERMEMBER_ok : forall cells h test v fuel, is_list h v cells -> length cells <= fuel ->
  exists r pre post, SUPERMEMBER fuel h test v = Ret r /\ cells = pre ++ post /\ is_list h r post /\
    Forall (fun x => test x = false) (elems h pre) /\ match post with [] => True | a :: _ => test (car h a) = true end.
Proof.
  induction cells as [|a r IH]; intros h test v fuel L F.
  - cbn in L. subst v. exists Nil, [], []. destruct fuel; cbn; repeat split; auto.
  - assert (L' := L). destruct L as [-> L]. cbn [length] in F. destruct fuel as [|f]; [lia|]. cbn [SUPERMEMBER].
    destruct (test (car h a)) eqn:T.
    + exists (Ptr a), [], (a :: r). repeat split; auto. constructor.
    + destruct (IH h test (cdr h a) f L ltac:(lia)) as [x [pre [post [E1 [E2 [E3 [E4 E5]]]]]]].
      exists x, (a :: pre), post. subst r. repeat split; auto. constructor; auto.
Qed.

Definition pair_matches (h : heap) (test : val -> bool) (v : val) : bool :=
  match v with Ptr p => test (car h p) | _ => false end.
Lemma SUPERASSOC_ok : forall cells h test v fuel, is_list h v cells -> length cells <= fuel ->
  SUPERASSOC fuel h test v = Ret (match find (pair_matches h test) (elems h cells) with Some p => p | None => Nil end).
Proof.
  induction cells as [|a r IH]; intros h test v fuel L F.
  - cbn in L. subst v. destruct fuel; reflexivity.
  - destruct L as [-> L]. cbn [length] in F. destruct fuel as [|f]; [lia|]. cbn [SUPERASSOC elems map find].
    unfold pair_matches at 1. destruct (car h a) as [|p|n] eqn:Ec; rewrite ?(IH h test (cdr h a) f) by (auto; lia); try reflexivity.
    destruct (test (car h p)); reflexivity.
Qed.
