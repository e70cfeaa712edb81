(** Proofs for C84: the primitives that call functions back. *)
From Coq Require Import List Arith Bool Lia ZArith.
From Verif Require SeqModel.
From Verif Require Import RootModel RootSpec RootProofs RootProofs2.
Import ListNotations.

Section Proofs3.
Context (env : env_t) (glob : list val) (F : Prop).
Hypothesis Henv : keeps env.
Hypothesis Hoom : oom env -> F.
Notation roots := (roots glob).
Notation cons := (RootModel.cons env glob).
Notation wp := (wp F).
Notation leaves := (leaves glob).

Lemma Forall2_rev {A B} (R : A -> B -> Prop) l l' : Forall2 R l l' -> Forall2 R (rev l) (rev l').
Proof. induction 1; cbn [rev]; [constructor|]. apply Forall2_app; [assumption|]. repeat constructor. assumption. Qed.
Lemma Forall2_length {A B} (R : A -> B -> Prop) l l' : Forall2 R l l' -> length l = length l'.
Proof. induction 1; cbn [length]; congruence. Qed.
Lemma live_reps h l ts vs : Forall2 (rep h) l ts -> live h vs -> live h (l ++ vs).
Proof.
  induction 1 as [|x t l ts H _ IH]; intros L; [exact L|]. cbn [app]. apply live_cons; [eapply rep_live; exact H|auto].
Qed.
Lemma wp_call f g args ts s (Q : val -> state -> Prop) : computes f g -> (throws f -> F) ->
  live (hp s) (roots s) -> Forall2 (rep (hp s)) args ts ->
  (forall v s', stk s' = stk s -> arg s' = arg s -> tm s' = S (tm s) -> same (hp s) (hp s') (args ++ roots s) ->
     live (hp s') (v :: stk s ++ arg s ++ glob ++ [last s] ++ [last s']) -> rep (hp s') v (g ts) ->
     (accessor f -> cover (hp s') [v] args) -> Q v s') ->
  wp (call glob f args) s Q.
Proof.
  intros Hc Ht L Ha K. unfold RootProofs.wp, call. destruct (f _ _ _ _) as [[[h v] l]|] eqn:E.
  - assert (live (hp s) (rev args ++ roots s)) as La.
    { eapply live_incl; [|exact (live_reps _ _ _ _ Ha L)].
      intros x Hx. rewrite in_app_iff in *. rewrite <- in_rev in Hx. exact Hx. }
    destruct (Hc _ _ _ _ ts _ _ _ E La) as (S1 & R1 & L1).
    { intros x Hx. apply in_or_app. left. apply in_rev. rewrite rev_involutive. exact Hx. }
    { exact Ha. }
    apply K; cbn [hp stk arg last tm]; auto.
    + eapply same_cover; [|exact S1]. apply cover_incl. intros x Hx. rewrite in_app_iff in *. rewrite <- in_rev. exact Hx.
    + pose proof (same_live _ _ _ S1 La) as L2. apply live_cons; [eapply rep_live; exact R1|].
      eapply (live_incl _ _ ((rev args ++ roots s) ++ [l])); [unfold RootModel.roots; inc|].
      apply live_app; assumption.
    + intros Hacc b [->|[]]. eapply Hacc; [exact E|reflexivity].
  - apply Ht. eexists _, _, _, _. exact E.
Qed.

(** ** Reading *)
Lemma rep_tlist h r l ts : lst h r l -> Forall2 (rep h) l ts -> rep h r (tlist ts).
Proof.
  intros C H. revert r C. induction H as [|x t l ts H1 H2 IH]; intros r C; inversion C; subst; [constructor|].
  cbn [tlist fold_right]. econstructor; [eassumption|exact H1|apply IH; assumption].
Qed.
Lemma tlist_inv h v ts : rep h v (tlist ts) -> exists l, lst h v l /\ Forall2 (rep h) l ts.
Proof.
  revert v. induction ts as [|t ts IH]; intros v H; cbn [tlist fold_right] in H; inversion H; subst.
  - exists []. split; constructor.
  - destruct (IH d) as (l & C & Hl); [assumption|]. exists (x :: l). split; econstructor; eauto.
Qed.

Lemma wp_read_elements rd W n : reads rd W -> (throws rd -> F) -> forall s B (Q : unit -> state -> Prop) xs ts,
  live (hp s) (roots s) -> stk s = xs ++ B -> Forall2 (rep (hp s)) xs ts ->
  (forall s' ys, stk s' = ys ++ xs ++ B -> length ys = n -> arg s' = arg s -> same (hp s) (hp s') (xs ++ B ++ arg s ++ glob) ->
     live (hp s') (roots s') -> Forall2 (rep (hp s')) (ys ++ xs) (rev (map W (seq (tm s) n)) ++ ts) -> Q tt s') ->
  wp (read_elements glob rd n) s Q.
Proof.
  intros Hr Ht. induction n as [|n IH]; intros s B Q xs ts L Es Hx K; cbn [read_elements].
  - apply wp_ret. apply (K s []); auto using same_refl.
  - apply wp_bind. unfold RootProofs.wp at 1, call. cbn [rev app]. destruct (rd _ _ _ _) as [[[h v] l]|] eqn:E.
    + destruct (Hr _ _ _ _ _ _ E L) as (S1 & R1 & L1). apply wp_bind. unfold RootProofs.wp at 1, push. cbn [hp stk arg last tm].
      eapply (IH _ B Q (v :: xs) (W (tm s) :: ts)); cbn [hp stk arg last tm].
      * eapply (live_incl _ _ (v :: roots s ++ [l])); [unfold RootModel.roots; cbn [stk arg last]; inc|].
        apply live_cons; [eapply rep_live; exact R1|]. apply live_app; [|exact L1]. eapply same_live; eauto.
      * rewrite Es. reflexivity.
      * constructor; [exact R1|]. eapply Forall2_rep_same; [exact S1| |exact Hx].
        apply cover_incl. unfold RootModel.roots. rewrite Es. inc.
      * intros s' ys F1 F2 F3 F4 F5 F6. apply (K s' (ys ++ [v])).
        -- rewrite F1. rewrite <- !app_assoc. reflexivity.
        -- rewrite app_length, F2. cbn [length]. lia.
        -- exact F3.
        -- eapply same_trans; [|exact F4|apply cover_incl; inc].
           eapply same_cover; [|exact S1]. apply cover_incl. unfold RootModel.roots. rewrite Es. inc.
        -- exact F5.
        -- cbn [seq map rev]. rewrite <- !app_assoc. exact F6.
    + apply Ht. eexists _, _, _, _. exact E.
Qed.
Lemma wp_cons_to_marker xs B : forall fuel s r l (Q : val -> state -> Prop),
  stk s = xs ++ STOPPER :: B -> ~ In STOPPER xs -> length xs < fuel -> live (hp s) (r :: roots s) -> lst (hp s) r l ->
  (forall r' s', stk s' = B -> arg s' = arg s -> same (hp s) (hp s') (r :: xs ++ B ++ arg s ++ glob) ->
     live (hp s') (r' :: roots s') -> lst (hp s') r' (rev xs ++ l) -> Q r' s') ->
  wp (cons_to_marker env glob fuel r) s Q.
Proof.
  induction xs as [|x xs IH]; intros fuel s r l Q Es Hn Hf L C K; (destruct fuel as [|fuel]; [cbn [length] in Hf; lia|]);
    cbn [cons_to_marker]; apply wp_bind; unfold RootProofs.wp at 1, pop; rewrite Es; cbn [app].
  - apply wp_ret. apply K; cbn [stk hp arg]; auto using same_refl.
    eapply live_incl; [|exact L]. unfold RootModel.roots. cbn [stk arg last]. rewrite Es. cbn [app]. inc.
  - assert (forall (A : Type) (k1 k2 : A), match x with Atom 0 => k1 | _ => k2 end = k2) as Em.
    { intros A k1 k2. destruct x as [|[|n]|]; try reflexivity. exfalso. apply Hn. left. reflexivity. }
    rewrite Em. cbn [length] in Hf. apply wp_bind. apply (wp_cons env glob F Henv Hoom); cbn [hp].
    { eapply live_incl; [|exact L]. unfold RootModel.roots. cbn [stk arg last]. rewrite Es. cbn [app]. inc. }
    intros c s2 E1 E2 E3 Sm Ec L2. cbn [stk arg hp last] in *.
    apply (IH fuel s2 (Ptr c) (x :: l)).
    + exact E1.
    + intros Hx. apply Hn. right. exact Hx.
    + lia.
    + eapply live_incl; [|exact L2]. inc.
    + econstructor; [exact Ec|]. eapply chain_same; [exact Sm|apply cover_incl; inc|exact C].
    + intros r' s' F1 F2 F3 F4 F5. apply K; [exact F1|congruence| |exact F4|cbn [rev]; rewrite <- app_assoc; exact F5].
      eapply same_trans; [|exact F3|].
      * eapply same_cover; [|exact Sm]. apply cover_incl. unfold RootModel.roots. cbn [stk arg app]. inc.
      * rewrite E2. apply cover_cons; [|apply cover_cons; [|apply cover_incl; inc]];
        intros b [->|[]]; (eapply reach_field; [apply reach_root; left; reflexivity|exact Ec|cbn [fields In]; auto]).
Qed.
Lemma Forall2_not_in h ys ts v t : Forall2 (rep h) ys ts -> (forall t', rep h v t' -> t' = t) -> ~ In t ts -> ~ In v ys.
Proof.
  induction 1 as [|y u ys ts H1 H2 IH]; intros Hv Hn; [intros []|]. intros [->|Hi].
  - apply Hn. left. apply Hv. exact H1.
  - apply IH; auto. intros Hi'. apply Hn. right. exact Hi'.
Qed.
Lemma read_delimited_list_ok rd W fuel n s : reads rd W -> (throws rd -> F) -> (forall t, W t <> TAtom 0) -> n < fuel ->
  sound glob s ->
  wp (read_delimited_list env glob rd fuel n) s (leaves s (fun h v => rep h v (tlist (map W (seq (tm s) n))))).
Proof.
  intros Hr Ht HW Hf L. unfold read_delimited_list. apply wp_bind. unfold RootProofs.wp at 1, push. apply wp_bind.
  eapply (wp_read_elements rd W n Hr Ht _ (STOPPER :: stk s) _ [] []); cbn [hp stk arg tm].
  - unfold RootModel.roots. cbn [stk arg last app]. apply live_atom; [discriminate|exact L].
  - reflexivity.
  - constructor.
  - intros s1 ys E1 E2 E3 S1 L1 R1. rewrite !app_nil_r in R1. cbn [app] in E1, S1.
    eapply wp_cons_to_marker; [exact E1| |rewrite E2; exact Hf|apply live_atom; [discriminate|exact L1]|constructor|].
    { eapply Forall2_not_in; [exact R1|intros t' H; inversion H; reflexivity|].
      intros Hi. apply in_rev in Hi. apply in_map_iff in Hi as (t & Et & _). exact (HW t Et). }
    intros r' s' F1 F2 F3 F4 F5. rewrite app_nil_r in F5. repeat split; [exact F1|congruence| |exact F4|].
    + eapply same_trans; [eapply same_cover; [|exact S1]|eapply same_cover; [|exact F3]|apply cover_incl; apply incl_refl];
        apply cover_incl; [inc|rewrite E3; inc].
    + eapply rep_tlist; [exact F5|]. apply (Forall2_rep_same _ _ _ _ _ F3); [apply cover_incl|].
      { intros x Hx. right. apply in_or_app. left. apply in_rev. exact Hx. }
      rewrite <- (rev_involutive (map W (seq (tm s) n))). apply Forall2_rev. exact R1.
Qed.
Lemma readvector_ok rd W n s : reads rd W -> (throws rd -> F) -> sound glob s ->
  wp (readvector env glob rd n) s (leaves s (fun h v => exists a l, v = Ptr a /\ h a = Some (Vec l) /\
    Forall2 (rep h) l (map W (seq (tm s) n)))).
Proof.
  intros Hr Ht L. unfold readvector. apply wp_bind.
  eapply (wp_read_elements rd W n Hr Ht _ (stk s) _ [] []); [exact L|reflexivity|constructor|].
  intros s1 ys E1 E2 E3 S1 L1 R1. rewrite !app_nil_r in R1. cbn [app] in E1, S1. subst n.
  eapply (wp_vector env glob F Henv Hoom); [exact E1|exact L1|].
  intros a s' F1 F2 F3 F4 F5. repeat split; [exact F1|congruence| |exact F4|].
  - eapply same_trans; [exact S1|eapply same_cover; [|exact F3]|apply cover_incl; apply incl_refl].
    apply cover_incl. rewrite E3. inc.
  - exists a, (rev ys). repeat split; [exact F5|]. apply (Forall2_rep_same _ _ _ _ _ F3).
    + apply cover_incl. intros x Hx. apply in_or_app. left. apply in_rev. exact Hx.
    + rewrite <- (rev_involutive (map W (seq (tm s) (length ys)))). apply Forall2_rev. exact R1.
Qed.

(** ** MAPCAR *)
Definition cell_of (h : heap) (v : val) (xd : val * val) : Prop := exists a, v = Ptr a /\ h a = Some (Cons (fst xd) (snd xd)).
Lemma upd_mid p v q w : upd (p ++ v :: q) (length p) w = p ++ w :: q.
Proof. induction p as [|x p IH]; cbn [app length upd]; [reflexivity|rewrite IH; reflexivity]. Qed.
Lemma wp_push_cars vs : forall p xds s i (Q : unit -> state -> Prop),
  arg s = p ++ vs -> i = length p -> Forall2 (cell_of (hp s)) vs xds ->
  Q tt (St (hp s) (rev (map fst xds) ++ stk s) (p ++ map snd xds) (last s) (tm s)) -> wp (push_cars (length vs) i) s Q.
Proof.
  induction vs as [|v vs IH]; intros p xds s i Q Ea Ei Hx K; inversion Hx as [|? [x d] ? xds' H1 H2]; subst; cbn [length push_cars].
  - apply wp_ret. cbn [map rev app] in K. rewrite <- Ea in K. destruct s; exact K.
  - apply wp_bind. apply (wp_argv F _ _ v); [rewrite Ea; apply nth_error_mid|]. destruct H1 as (a & -> & E1). cbn [fst snd] in E1.
    apply wp_bind. eapply (wp_look_cons F); [exact E1|]. apply wp_bind. unfold RootProofs.wp at 1, push.
    apply wp_bind. unfold RootProofs.wp at 1, set_argv. cbn [hp stk arg last tm].
    eapply (IH (p ++ [d]) xds'); cbn [hp stk arg last tm].
    + rewrite Ea, upd_mid, <- app_assoc. reflexivity.
    + rewrite app_length. cbn [length]. lia.
    + exact H2.
    + cbn [map rev fst snd] in K. rewrite <- !app_assoc in *. exact K.
Qed.
Lemma heads h vs : forall tss, Forall2 (rep h) vs (map tlist tss) -> Forall (fun ts => 0 < length ts) tss ->
  exists xds, Forall2 (cell_of h) vs xds /\ Forall2 (rep h) (map fst xds) (map (hd TNil) tss) /\
    Forall2 (rep h) (map snd xds) (map tlist (map (@tl tree) tss)).
Proof.
  induction vs as [|v vs IH]; intros tss H Hn; destruct tss as [|ts tss]; cbn [map] in H; inversion H; subst.
  - exists []. repeat split; constructor.
  - inversion Hn; subst. destruct (IH tss) as (xds & A & B & C); auto.
    destruct ts as [|t ts]; [cbn [length] in *; lia|].
    match goal with H : rep h v _ |- _ => cbn [tlist fold_right] in H; inversion H; subst end.
    exists ((x, d) :: xds). cbn [map fst snd hd tl]. repeat split; constructor; auto. exists a. auto.
Qed.
Lemma cell_cover h vs xds ws : Forall2 (cell_of h) vs xds -> cover h vs ws -> cover h (map fst xds ++ map snd xds) ws.
Proof.
  intros H C. assert (forall e b, In e xds -> In (Ptr b) [fst e; snd e] -> reach h ws b) as K.
  { revert C. induction H as [|v xd vs xds H1 H2 IH]; intros C e b He Hb; [destruct He|]. destruct He as [->|He].
    - destruct H1 as (a & -> & E). eapply reach_field; [apply C; left; reflexivity|exact E|exact Hb].
    - eapply IH; eauto. eapply cover_tail; exact C. }
  intros b Hb. apply in_app_or in Hb as [Hb|Hb]; apply in_map_iff in Hb as (e & Ee & He); apply (K e); auto; rewrite Ee; cbn [In]; auto.
Qed.
Lemma tmap_cons g t ts tss : tmap g ((t :: ts) :: tss) =
  g (map (hd TNil) ((t :: ts) :: tss)) :: tmap g (map (@tl tree) ((t :: ts) :: tss)).
Proof.
  unfold tmap. cbn [hd length map tl seq]. f_equal.
  - f_equal. f_equal. apply map_ext. intros l. destruct l; reflexivity.
  - rewrite <- seq_shift, map_map. apply map_ext. intros i. f_equal. cbn [nth]. f_equal. rewrite map_map. apply map_ext.
    intros l. destruct l; [destruct i; reflexivity|reflexivity].
Qed.
Lemma firstn_app_exact {A} (p q : list A) : firstn (length p) (p ++ q) = p.
Proof. rewrite firstn_app, firstn_all, Nat.sub_diag. cbn [firstn]. apply app_nil_r. Qed.

Lemma wp_mapcar f g fn B : computes f g -> (throws f -> F) -> forall fuel s vs tss rs dts (Q : val -> state -> Prop),
  arg s = fn :: vs -> Forall2 (rep (hp s)) vs (map tlist tss) -> tss <> [] ->
  Forall (fun ts => length (hd [] tss) <= length ts) tss -> length (hd [] tss) < fuel ->
  stk s = rs ++ B -> Forall2 (rep (hp s)) rs (rev dts) -> live (hp s) (roots s) ->
  (forall r s', stk s' = B -> same (hp s) (hp s') (B ++ glob) -> live (hp s') (r :: roots s') ->
     rep (hp s') r (tlist (dts ++ tmap g tss)) -> Q r s') ->
  wp (mapcar_loop env glob f fuel (length vs) (length rs)) s Q.
Proof.
  intros Hc Ht. induction fuel as [|fuel IH]; intros s vs tss rs dts Q Ea Hv Hne Hle Hf Es Hr L K; [lia|]. cbn [mapcar_loop].
  destruct tss as [|ts0 tss]; [congruence|]. destruct vs as [|v0 vs]; [inversion Hv|].
  apply wp_bind. apply (wp_argv F _ _ v0); [rewrite Ea; reflexivity|]. apply wp_bind. cbn [hd] in Hle, Hf.
  destruct ts0 as [|t ts0].
  - inversion Hv as [|? ? ? ? H0 _]; subst. cbn [tlist fold_right] in H0. inversion H0; subst.
    apply (wp_look_end F); [exact Logic.I|]. eapply (wp_stacknlist env glob F Henv Hoom); [exact Es|exact L|].
    intros r s' F1 F2 F3 F4 F5. apply K; [exact F1| |exact F4|].
    + eapply same_cover; [|exact F3]. apply cover_incl. inc.
    + unfold tmap. cbn [hd length seq map]. rewrite app_nil_r. eapply rep_tlist; [exact F5|].
      rewrite <- (rev_involutive dts). apply Forall2_rev. eapply Forall2_rep_same; [exact F3|apply cover_incl; inc|exact Hr].
  - assert (Forall (fun ts => 0 < length ts) ((t :: ts0) :: tss)) as Hpos.
    { eapply Forall_impl; [|exact Hle]. intros l Hl. cbn [length] in Hl. lia. }
    destruct (heads _ _ _ Hv Hpos) as (xds & Hx & Hh & Htl).
    set (VS := v0 :: vs) in *. set (TSS := (t :: ts0) :: tss) in *.
    assert (exists a x d, v0 = Ptr a /\ hp s a = Some (Cons x d)) as (a0 & x0 & d0 & -> & E0).
    { inversion Hx as [|? xd ? ? (a & -> & E) ?]; subst. exists a, (fst xd), (snd xd). auto. }
    eapply (wp_look_cons F); [exact E0|].
    apply wp_bind. eapply (wp_push_cars VS [fn] xds s 1); [exact Ea|reflexivity|exact Hx|].
    cbn [app]. pose proof (cell_cover _ _ _ (roots s) Hx) as Cc.
    assert (cover (hp s) VS (roots s)) as Cv. { apply cover_incl. unfold RootModel.roots. rewrite Ea. inc. }
    specialize (Cc Cv). set (s1 := St _ _ _ _ _).
    assert (length (rev (map fst xds)) = length VS) as Hlen.
    { rewrite rev_length, map_length. symmetry. eapply Forall2_length. exact Hx. }
    assert (live (hp s1) (roots s1)) as L1.
    { eapply live_cover; [|exact L]. unfold s1, RootModel.roots. cbn [stk arg last hp].
      apply cover_app; [apply cover_app|apply cover_cons; [|apply cover_app; [|apply cover_app]]]; try (apply cover_incl; unfold RootModel.roots; rewrite ?Ea; inc).
      - apply cover_rev. intros b Hb. apply Cc. apply in_or_app. left. exact Hb.
      - intros b Hb. apply Cc. apply in_or_app. right. exact Hb. }
    apply wp_bind. unfold RootProofs.wp at 1, top. change (stk s1) with (rev (map fst xds) ++ stk s).
    rewrite <- Hlen at 1. rewrite firstn_app_exact, rev_involutive.
    apply wp_bind. eapply (wp_call f g); [exact Hc|exact Ht|exact L1|exact Hh|].
    intros r s2 E1 E2 _ S2 L2 R2 _.
    assert (same (hp s) (hp s2) (map snd xds ++ rs ++ B ++ fn :: glob)) as S2'.
    { eapply same_cover; [|exact S2]. apply cover_incl. unfold RootModel.roots, s1. cbn [stk arg]. rewrite Es. inc. }
    apply wp_bind. rewrite <- Hlen at 1. apply (wp_drop F _ _ (rs ++ B)).
    { rewrite E1. unfold s1. cbn [stk]. rewrite Es. reflexivity. }
    apply wp_bind. unfold RootProofs.wp at 1, push. cbn [hp stk arg last tm].
    replace (length VS) with (length (map snd xds)) by (rewrite <- Hlen, rev_length, !map_length; reflexivity).
    change (S (length rs)) with (length (r :: rs)).
    eapply (IH _ (map snd xds) (map (@tl tree) TSS) (r :: rs) (dts ++ [g (map (hd TNil) TSS)])); cbn [hp stk arg last tm].
    + rewrite E2. unfold s1. reflexivity.
    + eapply Forall2_rep_same; [exact S2'|apply cover_incl; inc|exact Htl].
    + discriminate.
    + unfold TSS. cbn [map hd tl]. cbn [length] in Hle. apply Forall_forall. intros l Hl.
      change (ts0 :: map (@tl tree) tss) with (map (@tl tree) ((t :: ts0) :: tss)) in Hl. apply in_map_iff in Hl as (l' & <- & Hl').
      rewrite Forall_forall in Hle. specialize (Hle l' Hl'). destruct l'; cbn [tl length] in *; lia.
    + unfold TSS. cbn [map hd tl]. cbn [length] in Hf. lia.
    + reflexivity.
    + rewrite rev_app_distr. cbn [rev app]. constructor; [exact R2|]. eapply Forall2_rep_same; [exact S2'|apply cover_incl; inc|exact Hr].
    + eapply live_incl; [|exact L2]. unfold RootModel.roots, s1. cbn [stk arg last]. rewrite E2. unfold s1. cbn [arg]. rewrite Es. inc.
    + intros r' s' F1 F2 F3 F4. apply K; [exact F1| |exact F3|].
      * eapply same_trans; [eapply same_cover; [|exact S2']|exact F2|apply cover_incl; apply incl_refl]. apply cover_incl. inc.
      * unfold TSS. rewrite tmap_cons. rewrite <- app_assoc in F4. exact F4.
Qed.

(** ** Functions with a test and a key *)
Lemma rep_isnil h v t : rep h v t -> isnil v = tnil t.
Proof. intros H. inversion H; reflexivity. Qed.
Definition moved (s s' : state) : Prop :=
  stk s' = stk s /\ arg s' = arg s /\ same (hp s) (hp s') (stk s ++ arg s ++ glob) /\ live (hp s') (roots s').
Lemma moved_refl s : live (hp s) (roots s) -> moved s s.
Proof. intros L. repeat split; auto using same_refl. Qed.
Lemma moved_trans s1 s2 s3 : moved s1 s2 -> moved s2 s3 -> moved s1 s3.
Proof.
  intros (A1 & A2 & A3 & A4) (B1 & B2 & B3 & B4). repeat split; [congruence|congruence| |exact B4].
  rewrite A1, A2 in B3. eapply same_trans; [exact A3|exact B3|apply cover_incl; apply incl_refl].
Qed.
Lemma wp_keyed key kf x X s (Q : val -> state -> Prop) : key_is key kf -> (throws_opt key -> F) ->
  live (hp s) (roots s) -> rep (hp s) x X ->
  (forall v s', moved s s' -> rep (hp s') v (kf X) -> (key_accessor key -> cover (hp s') [v] [x]) -> Q v s') ->
  wp (keyed glob key x) s Q.
Proof.
  intros Hk Ht L Hx K. unfold keyed. destruct key as [k|].
  - eapply (wp_call k); [exact Hk|exact Ht|exact L|constructor; [exact Hx|constructor]|].
    intros v s' E1 E2 _ Sm L' R Ha. apply K; [|exact R|exact Ha]. repeat split; auto.
    + eapply same_cover; [|exact Sm]. apply cover_incl. unfold RootModel.roots. inc.
    + eapply live_incl; [|exact L']. unfold RootModel.roots. rewrite E1, E2. inc.
  - apply wp_ret. apply K; [apply moved_refl; exact L|rewrite Hk; exact Hx|]. intros _. apply cover_incl. apply incl_refl.
Qed.
Lemma wp_tested test g x y X Y s (Q : val -> state -> Prop) : computes test g -> (throws test -> F) ->
  live (hp s) (roots s) -> rep (hp s) x X -> rep (hp s) y Y ->
  (forall r s', moved s s' -> isnil r = tnil (g [X; Y]) -> Q r s') -> wp (call glob test [x; y]) s Q.
Proof.
  intros Hk Ht L Hx Hy K. eapply (wp_call test g); [exact Hk|exact Ht|exact L|repeat constructor; eassumption|].
  intros v s' E1 E2 _ Sm L' R _. apply K; [|eapply rep_isnil; exact R]. repeat split; auto.
  - eapply same_cover; [|exact Sm]. apply cover_incl. unfold RootModel.roots. inc.
  - eapply live_incl; [|exact L']. unfold RootModel.roots. rewrite E1, E2. inc.
Qed.
Lemma moved_rep s s' v t : moved s s' -> cover (hp s) [v] (arg s) -> rep (hp s) v t -> rep (hp s') v t.
Proof. intros (A1 & A2 & A3 & A4) C. eapply rep_same; [exact A3|]. eapply cover_weaken; [exact C|inc]. Qed.
Lemma moved_cover s s' vs : moved s s' -> cover (hp s) vs (arg s) -> cover (hp s') vs (arg s').
Proof.
  intros (A1 & A2 & A3 & A4) C. rewrite A2. eapply same_coverage; [|exact C]. eapply same_cover; [|exact A3]. apply cover_incl. inc.
Qed.
Lemma moved_chain s s' v l t : moved s s' -> cover (hp s) [v] (arg s) -> chain (hp s) v l t -> chain (hp s') v l t.
Proof. intros (A1 & A2 & A3 & A4) C. eapply chain_same; [exact A3|]. eapply cover_weaken; [exact C|inc]. Qed.
Lemma moved_contents s s' els : moved s s' -> cover (hp s) (map fst els) (arg s) -> contents (hp s) els -> contents (hp s') els.
Proof.
  intros M C H. induction els as [|e els IH]; [constructor|]. inversion H; subst. constructor.
  - eapply moved_rep; [exact M|eapply cover_in; [exact C|left; reflexivity]|assumption].
  - apply IH; [eapply cover_tail; exact C|assumption].
Qed.

(** the state of the loops: the rest [seq] of the list and the values pushed *)
Definition looping (B : list val) (s0 s : state) (seq : val) (rest : list (val * tree)) (stack : list val) : Prop :=
  stk s = stack ++ B /\ arg s = arg s0 /\ same (hp s0) (hp s) (B ++ arg s0 ++ glob) /\ live (hp s) (roots s) /\
  lst (hp s) seq (map fst rest) /\ cover (hp s) [seq] (arg s0) /\ contents (hp s) rest.
Lemma looping_moved B s0 s s' seq rest stack : looping B s0 s seq rest stack -> moved s s' -> looping B s0 s' seq rest stack.
Proof.
  intros (A1 & A2 & A3 & A4 & A5 & A6 & A7) Mv. pose proof Mv as (M1 & M2 & M3 & M4).
  assert (cover (hp s) [seq] (arg s)) as C by (rewrite A2; exact A6).
  repeat split; [congruence|congruence| |exact M4| | |].
  - eapply same_trans; [exact A3|eapply same_cover; [|exact M3]|apply cover_incl; apply incl_refl].
    apply cover_incl. rewrite A1, A2. inc.
  - eapply moved_chain; eauto.
  - rewrite <- A2. rewrite <- M2. eapply moved_cover; [exact Mv|exact C].
  - eapply moved_contents; [exact Mv| |exact A7]. eapply cover_tail. eapply chain_cover; [exact C|exact A5].
Qed.
Lemma looping_next B s0 s a x d e rest stack : looping B s0 s (Ptr a) (e :: rest) stack -> hp s a = Some (Cons x d) ->
  x = fst e /\ looping B s0 s d rest stack /\ cover (hp s) [x] (arg s) /\ rep (hp s) x (snd e).
Proof.
  intros (A1 & A2 & A3 & A4 & A5 & A6 & A7) E. cbn [map] in A5. inversion A5; subst.
  match goal with H : hp s a = Some (Cons (fst e) _) |- _ => rewrite E in H; injection H as -> -> end.
  inversion A7; subst. repeat split; auto.
  - intros b [->|[]]. eapply reach_field; [apply A6; left; reflexivity|exact E|right; left; reflexivity].
  - rewrite A2. intros b [Eb|[]]. eapply reach_field; [apply A6; left; reflexivity|exact E|left; exact Eb].
Qed.
Lemma looping_push B s0 s seq rest stack x : looping B s0 s seq rest stack -> cover (hp s) [x] (arg s) ->
  looping B s0 (St (hp s) (x :: stk s) (arg s) (last s) (tm s)) seq rest (x :: stack).
Proof.
  intros (A1 & A2 & A3 & A4 & A5 & A6 & A7) C. repeat split; cbn [stk arg hp last]; auto; [rewrite A1; reflexivity|].
  apply (live_pushed glob s [x]); [exact A4|]. eapply cover_weaken; [exact C|apply arg_roots].
Qed.
Lemma looping_cell B s0 s seq e rest stack : looping B s0 s seq (e :: rest) stack ->
  exists a x d, seq = Ptr a /\ hp s a = Some (Cons x d).
Proof. intros (A1 & A2 & A3 & A4 & A5 & A6 & A7). cbn [map] in A5. inversion A5; subst. eauto. Qed.
Lemma looping_nil B s0 s seq stack : looping B s0 s seq [] stack -> seq = Nil.
Proof. intros (A1 & A2 & A3 & A4 & A5 & A6 & A7). cbn [map] in A5. inversion A5; subst. reflexivity. Qed.
Lemma looping_arg B s0 s seq rest stack v : looping B s0 s seq rest stack -> cover (hp s0) [v] (arg s0) -> cover (hp s) [v] (arg s).
Proof.
  intros (A1 & A2 & A3 & A4 & A5 & A6 & A7) C. rewrite A2. eapply same_coverage; [|exact C].
  eapply same_cover; [|exact A3]. apply cover_incl. inc.
Qed.
Lemma looping_rep B s0 s seq rest stack v t : looping B s0 s seq rest stack -> cover (hp s0) [v] (arg s0) ->
  rep (hp s0) v t -> rep (hp s) v t.
Proof.
  intros (A1 & A2 & A3 & A4 & A5 & A6 & A7) C. eapply rep_same; [exact A3|]. eapply cover_weaken; [exact C|inc].
Qed.
Lemma looping_live B s0 s seq rest stack : looping B s0 s seq rest stack -> live (hp s) (roots s).
Proof. intros (A1 & A2 & A3 & A4 & A5 & A6 & A7). exact A4. Qed.

(** the end of the three functions: the pushed values are put before what is left *)
Lemma wp_finish s0 s seq rest stack : looping (stk s0) s0 s seq rest stack ->
  wp (pop_cons env glob (length stack) seq) s (leaves s0 (fun h v => lst h v (rev stack ++ map fst rest))).
Proof.
  intros (A1 & A2 & A3 & A4 & A5 & A6 & A7). eapply (wp_pop_cons env glob F Henv Hoom); [exact A1| |exact A5|].
  - eapply live_cover; [|exact A4]. apply cover_cons; [|apply cover_incl; apply incl_refl].
    eapply cover_weaken; [exact A6|]. rewrite <- A2. apply arg_roots.
  - intros v s' F1 F2 F3 F4 F5 _. repeat split; [exact F1|congruence| |exact F4|exact F5].
    eapply same_trans; [exact A3|eapply same_cover; [|exact F3]|apply cover_incl; apply incl_refl].
    apply cover_incl. rewrite A2. inc.
Qed.
(** the beginning: pushsequence(ctx,seq,0,start) *)
Lemma wp_start s seq els start (Q : nat * val -> state -> Prop) : sound glob s -> cover (hp s) [seq] (arg s) ->
  lst (hp s) seq (map fst els) -> contents (hp s) els ->
  (forall rest s', looping (stk s) s s' rest (skipn start els) (map fst (rev (firstn start els))) ->
     Q (length (map fst (rev (firstn start els))), rest) s') ->
  wp (push_upto start seq 0) s Q.
Proof.
  intros L C Hl Hc K. eapply (wp_push_upto F); [exact Hl|exact Logic.I|]. intros rest Hr Hcov. cbn [Nat.add].
  rewrite firstn_map, skipn_map in *. rewrite <- map_rev in *.
  replace (length (map fst (firstn start els))) with (length (map fst (rev (firstn start els))))
    by (rewrite !map_length, rev_length; reflexivity).
  apply K. repeat split; cbn [stk hp arg last]; auto using same_refl.
  - apply (live_pushed glob s); [exact L|]. rewrite map_rev. apply cover_rev. eapply cover_weaken; [|apply arg_roots].
    intros b Hb. apply (cover_tail _ _ Nil _ (chain_cover _ _ _ _ _ C Hl)).
    rewrite <- (firstn_skipn start els), map_app. apply in_or_app. left. exact Hb.
  - unfold contents in *. rewrite <- (firstn_skipn start els) in Hc. apply Forall_app in Hc. apply Hc.
Qed.

Lemma wp_remove_loop test g key kf s0 B item T : computes test g -> (throws test -> F) -> key_is key kf -> (throws_opt key -> F) ->
  cover (hp s0) [item] (arg s0) -> rep (hp s0) item T -> forall n count s seq rest stack (Q : nat * val -> state -> Prop),
  looping B s0 s seq rest (map fst stack) ->
  (SeqModel.remove_loop (SeqModel.testresult (block (item, T) g kf)) n count rest stack = ListModel.Error -> F) ->
  (forall seq' rest' stack' s', looping B s0 s' seq' rest' (map fst stack') ->
     SeqModel.remove_loop (SeqModel.testresult (block (item, T) g kf)) n count rest stack = ListModel.Ret (stack', rest') ->
     Q (length (map fst stack'), seq') s') ->
  wp (remove_loop glob test key item n count seq (length (map fst stack))) s Q.
Proof.
  intros Hg Hgt Hk Hkt Ci Ri. induction n as [|n IH]; intros count s seq rest stack Q Hl HF K; cbn [remove_loop].
  - apply wp_ret. eapply K; [exact Hl|reflexivity].
  - destruct count as [|c]; [apply wp_ret; eapply K; [exact Hl|reflexivity]|]. apply wp_bind.
    destruct rest as [|e rest].
    + rewrite (looping_nil _ _ _ _ _ Hl). apply (wp_look_end F); [exact Logic.I|]. apply HF. reflexivity.
    + destruct (looping_cell _ _ _ _ _ _ _ Hl) as (a & x & d & -> & E). eapply (wp_look_cons F); [exact E|].
      destruct (looping_next _ _ _ _ _ _ _ _ _ Hl E) as (-> & Hl' & Cx & Rx).
      apply wp_bind. eapply wp_keyed; [exact Hk|exact Hkt|exact (looping_live _ _ _ _ _ _ Hl)|exact Rx|].
      intros te s1 M1 Rte _. apply wp_bind.
      eapply wp_tested; [exact Hg|exact Hgt|apply M1| |exact Rte|].
      { eapply looping_rep; [eapply looping_moved; [exact Hl|exact M1]|exact Ci|exact Ri]. }
      intros r s2 M2 Er. rewrite Er. pose proof (moved_trans _ _ _ M1 M2) as M12.
      cbn [SeqModel.remove_loop] in HF, K. unfold SeqModel.testresult, block in HF, K.
      cbn [SeqModel.t_ifnot SeqModel.t_if SeqModel.t_testnot SeqModel.t_test SeqModel.t_item SeqModel.t_key snd] in HF, K.
      fold (SeqModel.testresult (block (item, T) g kf)) in HF, K.
      pose proof (looping_moved _ _ _ _ _ _ _ Hl' M12) as Hl2.
      destruct (tnil (g [T; kf (snd e)])); cbn [negb] in HF, K.
      * apply wp_bind. unfold RootProofs.wp at 1, push. change (S (length (map fst stack))) with (length (map fst (e :: stack))).
        eapply IH; [|exact HF|exact K]. cbn [map]. apply looping_push; [exact Hl2|].
        eapply moved_cover; [exact M12|exact Cx].
      * eapply IH; [exact Hl2|exact HF|exact K].
Qed.
Lemma UNIREMOVE_ok test g key kf start end_ count s item T seq els : sound glob s ->
  computes test g -> (throws test -> F) -> key_is key kf -> (throws_opt key -> F) ->
  nth_error (arg s) 0 = Some item -> rep (hp s) item T ->
  nth_error (arg s) 1 = Some seq -> lst (hp s) seq (map fst els) -> contents (hp s) els ->
  (SeqModel.UNIREMOVE_list (block (item, T) g kf) els start end_ count = ListModel.Error -> F) ->
  wp (UNIREMOVE env glob test key start end_ count) s
     (leaves s (fun h v => exists els', SeqModel.UNIREMOVE_list (block (item, T) g kf) els start end_ count = ListModel.Ret els' /\
        lst h v (map fst els'))).
Proof.
  intros L Hg Hgt Hk Hkt Ei Ri Es Hl Hc HF. unfold UNIREMOVE. apply wp_bind. apply (wp_argv F _ _ item); [exact Ei|].
  apply wp_bind. apply (wp_argv F _ _ seq); [exact Es|].
  destruct els as [|e els].
  - cbn [map] in Hl. inversion Hl; subst. apply wp_ret. repeat split; auto using same_refl.
    + apply live_atom; [discriminate|exact L].
    + exists []. split; [reflexivity|constructor].
  - set (ELS := e :: els) in *.
    assert (wp (let! (pc, rest) := push_upto start seq 0 in
                let! (pc0, rest0) := remove_loop glob test key item (end_ - start) count rest pc in pop_cons env glob pc0 rest0) s
      (leaves s (fun h v => exists els', SeqModel.UNIREMOVE_list (block (item, T) g kf) ELS start end_ count = ListModel.Ret els' /\
        lst h v (map fst els')))) as Hmain.
    { apply wp_bind. eapply wp_start; [exact L|eapply cover_arg; exact Es|exact Hl|exact Hc|].
      intros rest s1 H1. apply wp_bind.
      eapply (wp_remove_loop test g key kf s (stk s) item T Hg Hgt Hk Hkt);
        [eapply cover_arg; exact Ei|exact Ri|exact H1| |].
      - intros E. apply HF. unfold SeqModel.UNIREMOVE_list, ELS. cbn [ListModel.bind]. fold ELS. rewrite E. reflexivity.
      - intros seq' rest' stack' s' H2 E. eapply wp_mono; [eapply wp_finish; exact H2|].
        intros v s2 (A1 & A2 & A3 & A4 & A5). repeat split; auto. exists (rev stack' ++ rest'). split.
        + unfold SeqModel.UNIREMOVE_list, ELS. fold ELS. rewrite E. reflexivity.
        + rewrite map_app, map_rev. exact A5. }
    destruct seq; [inversion Hl|exact Hmain|exact Hmain].
Qed.

Lemma wp_substitute_loop test g key kf s0 B new TN item T : computes test g -> (throws test -> F) -> key_is key kf ->
  (throws_opt key -> F) -> cover (hp s0) [new] (arg s0) ->
  cover (hp s0) [item] (arg s0) -> rep (hp s0) item T -> forall n count s seq rest stack (Q : nat * val -> state -> Prop),
  looping B s0 s seq rest (map fst stack) ->
  (SeqModel.subst_loop (SeqModel.testresult (block (item, T) g kf)) (new, TN) n count rest stack = ListModel.Error -> F) ->
  (forall seq' rest' stack' s', looping B s0 s' seq' rest' (map fst stack') ->
     SeqModel.subst_loop (SeqModel.testresult (block (item, T) g kf)) (new, TN) n count rest stack = ListModel.Ret (stack', rest') ->
     Q (length (map fst stack'), seq') s') ->
  wp (substitute_loop glob test key new item n count seq (length (map fst stack))) s Q.
Proof.
  intros Hg Hgt Hk Hkt Cn Ci Ri. induction n as [|n IH]; intros count s seq rest stack Q Hl HF K; cbn [substitute_loop].
  - apply wp_ret. eapply K; [exact Hl|reflexivity].
  - destruct count as [|c]; [apply wp_ret; eapply K; [exact Hl|reflexivity]|]. apply wp_bind.
    destruct rest as [|e rest].
    + rewrite (looping_nil _ _ _ _ _ Hl). apply (wp_look_end F); [exact Logic.I|]. apply HF. reflexivity.
    + destruct (looping_cell _ _ _ _ _ _ _ Hl) as (a & x & d & -> & E). eapply (wp_look_cons F); [exact E|].
      destruct (looping_next _ _ _ _ _ _ _ _ _ Hl E) as (-> & Hl' & Cx & Rx).
      apply wp_bind. eapply wp_keyed; [exact Hk|exact Hkt|exact (looping_live _ _ _ _ _ _ Hl)|exact Rx|].
      intros te s1 M1 Rte _. apply wp_bind.
      eapply wp_tested; [exact Hg|exact Hgt|apply M1| |exact Rte|].
      { eapply looping_rep; [eapply looping_moved; [exact Hl|exact M1]|exact Ci|exact Ri]. }
      intros r s2 M2 Er. rewrite Er. pose proof (moved_trans _ _ _ M1 M2) as M12.
      cbn [SeqModel.subst_loop] in HF, K. unfold SeqModel.testresult, block in HF, K.
      cbn [SeqModel.t_ifnot SeqModel.t_if SeqModel.t_testnot SeqModel.t_test SeqModel.t_item SeqModel.t_key snd] in HF, K.
      fold (SeqModel.testresult (block (item, T) g kf)) in HF, K.
      pose proof (looping_moved _ _ _ _ _ _ _ Hl' M12) as Hl2.
      destruct (tnil (g [T; kf (snd e)])); cbn [negb] in HF, K;
        (apply wp_bind; unfold RootProofs.wp at 1, push).
      * change (S (length (map fst stack))) with (length (map fst (e :: stack))).
        eapply IH; [|exact HF|exact K]. cbn [map]. apply looping_push; [exact Hl2|].
        eapply moved_cover; [exact M12|exact Cx].
      * change (S (length (map fst stack))) with (length (map fst ((new, TN) :: stack))).
        eapply IH; [|exact HF|exact K]. cbn [map fst]. apply looping_push; [exact Hl2|].
        eapply looping_arg; [exact Hl2|exact Cn].
Qed.
Lemma SUBSTITUTE_ok test g key kf start end_ count s new TN item T seq els : sound glob s ->
  computes test g -> (throws test -> F) -> key_is key kf -> (throws_opt key -> F) ->
  nth_error (arg s) 0 = Some new -> nth_error (arg s) 1 = Some item -> rep (hp s) item T ->
  nth_error (arg s) 2 = Some seq -> lst (hp s) seq (map fst els) -> contents (hp s) els ->
  (SeqModel.SUBSTITUTE_list (block (item, T) g kf) (new, TN) els start end_ count = ListModel.Error -> F) ->
  wp (SUBSTITUTE env glob test key start end_ count) s
     (leaves s (fun h v => exists els', SeqModel.SUBSTITUTE_list (block (item, T) g kf) (new, TN) els start end_ count = ListModel.Ret els' /\
        lst h v (map fst els'))).
Proof.
  intros L Hg Hgt Hk Hkt En Ei Ri Es Hl Hc HF. unfold SUBSTITUTE. apply wp_bind. apply (wp_argv F _ _ new); [exact En|].
  apply wp_bind. apply (wp_argv F _ _ item); [exact Ei|]. apply wp_bind. apply (wp_argv F _ _ seq); [exact Es|].
  destruct els as [|e els].
  - cbn [map] in Hl. inversion Hl; subst. apply wp_ret. repeat split; auto using same_refl.
    + apply live_atom; [discriminate|exact L].
    + exists []. split; [reflexivity|constructor].
  - set (ELS := e :: els) in *.
    assert (wp (let! (pc, rest) := push_upto start seq 0 in
                let! (pc0, rest0) := substitute_loop glob test key new item (end_ - start) count rest pc in pop_cons env glob pc0 rest0) s
      (leaves s (fun h v => exists els', SeqModel.SUBSTITUTE_list (block (item, T) g kf) (new, TN) ELS start end_ count = ListModel.Ret els' /\
        lst h v (map fst els')))) as Hmain.
    { apply wp_bind. eapply wp_start; [exact L|eapply cover_arg; exact Es|exact Hl|exact Hc|].
      intros rest s1 H1. apply wp_bind.
      eapply (wp_substitute_loop test g key kf s (stk s) new TN item T Hg Hgt Hk Hkt);
        [eapply cover_arg; exact En|eapply cover_arg; exact Ei|exact Ri|exact H1| |].
      - intros E. apply HF. unfold SeqModel.SUBSTITUTE_list, ELS. fold ELS. rewrite E. reflexivity.
      - intros seq' rest' stack' s' H2 E. eapply wp_mono; [eapply wp_finish; exact H2|].
        intros v s2 (A1 & A2 & A3 & A4 & A5). repeat split; auto. exists (rev stack' ++ rest'). split.
        + unfold SeqModel.SUBSTITUTE_list, ELS. fold ELS. rewrite E. reflexivity.
        + rewrite map_app, map_rev. exact A5. }
    destruct seq; [inversion Hl|exact Hmain|exact Hmain].
Qed.

Lemma wp_dup_in test g key kf s0 B item e te : computes test g -> (throws test -> F) -> key_is key kf -> (throws_opt key -> F) ->
  forall n s seq rest stack (Q : bool -> state -> Prop), looping B s0 s seq rest stack ->
  cover (hp s) [te] (arg s) -> rep (hp s) te (kf (snd e)) ->
  (forall s', moved s s' -> Q (SeqModel.dup_in (SeqModel.dup_test (block item g kf)) e n rest) s') ->
  wp (dup_in glob test key te n seq) s Q.
Proof.
  intros Hg Hgt Hk Hkt. induction n as [|n IH]; intros s seq rest stack Q Hl Ct Rt K; cbn [dup_in].
  - apply wp_ret. apply K. apply moved_refl. exact (looping_live _ _ _ _ _ _ Hl).
  - destruct rest as [|e2 rest].
    + rewrite (looping_nil _ _ _ _ _ Hl). apply wp_ret. apply K. apply moved_refl. exact (looping_live _ _ _ _ _ _ Hl).
    + destruct (looping_cell _ _ _ _ _ _ _ Hl) as (a & x & d & -> & E). apply wp_bind. eapply (wp_look_cons F); [exact E|].
      destruct (looping_next _ _ _ _ _ _ _ _ _ Hl E) as (-> & Hl' & Cx & Rx).
      apply wp_bind. eapply wp_keyed; [exact Hk|exact Hkt|exact (looping_live _ _ _ _ _ _ Hl)|exact Rx|].
      intros e2' s1 M1 Re2 _. apply wp_bind.
      eapply wp_tested; [exact Hg|exact Hgt|apply M1|eapply moved_rep; [exact M1|exact Ct|exact Rt]|exact Re2|].
      intros r s2 M2 Er. rewrite Er. pose proof (moved_trans _ _ _ M1 M2) as M12.
      cbn [SeqModel.dup_in] in K.
      change (SeqModel.dup_test (block item g kf) e e2) with (negb (tnil (g [kf (snd e); kf (snd e2)]))) in K.
      destruct (tnil (g [kf (snd e); kf (snd e2)])); cbn [negb] in K.
      * eapply IH; [eapply looping_moved; [exact Hl'|exact M12]|eapply moved_cover; [exact M12|exact Ct]
          |eapply moved_rep; [exact M12|exact Ct|exact Rt]|].
        intros s' M3. apply K. eapply moved_trans; [exact M12|exact M3].
      * apply wp_ret. apply K. exact M12.
Qed.
Lemma wp_dup_loop test g key kf s0 B item : computes test g -> (throws test -> F) -> key_is key kf -> (throws_opt key -> F) ->
  key_accessor key -> forall n s seq rest stack (Q : nat * val -> state -> Prop), looping B s0 s seq rest (map fst stack) ->
  (forall seq' s', looping B s0 s' seq' (snd (SeqModel.dup_loop (SeqModel.dup_test (block item g kf)) n rest stack))
       (map fst (fst (SeqModel.dup_loop (SeqModel.dup_test (block item g kf)) n rest stack))) ->
     Q (length (map fst (fst (SeqModel.dup_loop (SeqModel.dup_test (block item g kf)) n rest stack))), seq') s') ->
  wp (dup_loop glob test key n seq (length (map fst stack))) s Q.
Proof.
  intros Hg Hgt Hk Hkt Ha. induction n as [|n IH]; intros s seq rest stack Q Hl K; cbn [dup_loop].
  - apply wp_ret. apply K. exact Hl.
  - destruct rest as [|e rest].
    + pose proof (looping_nil _ _ _ _ _ Hl) as En; subst seq. apply wp_ret. apply K. exact Hl.
    + destruct (looping_cell _ _ _ _ _ _ _ Hl) as (a & x & d & -> & E). apply wp_bind. eapply (wp_look_cons F); [exact E|].
      destruct (looping_next _ _ _ _ _ _ _ _ _ Hl E) as (-> & Hl' & Cx & Rx).
      apply wp_bind. eapply wp_keyed; [exact Hk|exact Hkt|exact (looping_live _ _ _ _ _ _ Hl)|exact Rx|].
      intros te s1 M1 Rte Cte. specialize (Cte Ha).
      pose proof (moved_cover _ _ _ M1 Cx) as Cx1.
      apply wp_bind. eapply (wp_dup_in test g key kf s0 B item e te Hg Hgt Hk Hkt);
        [eapply looping_moved; [exact Hl'|exact M1]|eapply cover_trans; [exact Cte|exact Cx1]|exact Rte|].
      intros s2 M2. pose proof (moved_trans _ _ _ M1 M2) as M12. cbn [SeqModel.dup_loop] in K.
      pose proof (looping_moved _ _ _ _ _ _ _ Hl' M12) as Hl2.
      destruct (SeqModel.dup_in _ e n rest).
      * eapply IH; [exact Hl2|exact K].
      * apply wp_bind. unfold RootProofs.wp at 1, push. change (S (length (map fst stack))) with (length (map fst (e :: stack))).
        eapply IH; [|exact K]. cbn [map]. apply looping_push; [exact Hl2|]. eapply moved_cover; [exact M12|exact Cx].
Qed.
Lemma REMOVE_DUPLICATES_ok test g key kf start end_ s item seq els : sound glob s ->
  computes test g -> (throws test -> F) -> key_is key kf -> (throws_opt key -> F) -> key_accessor key ->
  nth_error (arg s) 0 = Some seq -> lst (hp s) seq (map fst els) -> contents (hp s) els ->
  wp (REMOVE_DUPLICATES env glob test key start end_) s
     (leaves s (fun h v => lst h v (map fst (SeqModel.REMOVE_DUPLICATES_list (block item g kf) els start end_)))).
Proof.
  intros L Hg Hgt Hk Hkt Ha Es Hl Hc. unfold REMOVE_DUPLICATES. apply wp_bind. apply (wp_argv F _ _ seq); [exact Es|].
  set (Post := leaves s _).
  assert (wp (let! (pc, rest) := push_upto start seq 0 in
              let! (pc0, rest0) := dup_loop glob test key (end_ - start) rest pc in pop_cons env glob pc0 rest0) s Post) as Hmain.
  { apply wp_bind. eapply wp_start; [exact L|eapply cover_arg; exact Es|exact Hl|exact Hc|].
    intros rest s1 H1. apply wp_bind.
    eapply (wp_dup_loop test g key kf s (stk s) item Hg Hgt Hk Hkt Ha); [exact H1|].
    intros seq' s' H2. eapply wp_mono; [eapply wp_finish; exact H2|].
    intros v s2 (A1 & A2 & A3 & A4 & A5). repeat split; auto. unfold SeqModel.REMOVE_DUPLICATES_list.
    destruct (SeqModel.dup_loop _ _ _ _) as [stack' rest']. cbn [fst snd] in A5. rewrite map_app, map_rev. exact A5. }
  destruct seq; [|exact Hmain|exact Hmain].
  destruct els; [|inversion Hl]. apply wp_ret. repeat split; auto using same_refl.
  - apply live_atom; [discriminate|exact L].
  - unfold SeqModel.REMOVE_DUPLICATES_list. rewrite skipn_nil, firstn_nil. destruct (end_ - start); constructor.
Qed.

(** ** SORT *)
Lemma wp_compar pred g key kf x y s (Q : bool -> state -> Prop) : computes pred g -> (throws pred -> F) -> key_is key kf ->
  (throws_opt key -> F) -> live (hp s) (roots s) -> contents (hp s) [x; y] -> cover (hp s) [fst x; fst y] (stk s) ->
  (forall s', moved s s' -> Q (less g kf x y) s') -> wp (compar glob pred key (fst x) (fst y)) s Q.
Proof.
  intros Hg Hgt Hk Hkt L Hc Cv K. inversion Hc as [|? ? Rx Hc']; subst. inversion Hc' as [|? ? Ry _]; subst. unfold compar.
  destruct key as [k|].
  - apply wp_bind. eapply (wp_keyed (Some k) kf); [exact Hk|exact Hkt|exact L|exact Rx|].
    intros xx s1 M1 Rxx _. pose proof M1 as (A1 & A2 & A3 & A4). apply wp_bind. unfold RootProofs.wp at 1, push. apply wp_bind.
    eapply (wp_keyed (Some k) kf); [exact Hk|exact Hkt| | |].
    { cbn [hp]. unfold RootModel.roots. cbn [stk arg last app]. apply live_cons; [eapply rep_live; exact Rxx|exact A4]. }
    { cbn [hp]. eapply rep_same; [exact A3| |exact Ry]. eapply cover_weaken; [eapply cover_in; [exact Cv|right; left; reflexivity]|inc]. }
    intros yy s2 (B1 & B2 & B3 & B4) Ryy _. cbn [stk arg hp last] in *. apply wp_bind. unfold RootProofs.wp at 1, push. apply wp_bind.
    eapply wp_tested; [exact Hg|exact Hgt| | |exact Ryy|].
    { cbn [hp]. unfold RootModel.roots. cbn [stk arg last app]. apply live_cons; [eapply rep_live; exact Ryy|exact B4]. }
    { cbn [hp]. eapply rep_same; [exact B3|apply cover_incl; inc|exact Rxx]. }
    intros r s3 (C1 & C2 & C3 & C4) Er. cbn [stk arg hp last] in *. apply wp_bind.
    change 2 with (length [yy; xx]). apply (wp_drop F _ _ (stk s1)); [rewrite C1, B1; reflexivity|].
    apply wp_ret. rewrite Er. apply K. repeat split; cbn [stk arg hp last].
    + exact A1.
    + congruence.
    + eapply same_trans; [exact A3|eapply same_trans; [eapply same_cover; [|exact B3]|eapply same_cover; [|exact C3]|apply cover_incl; apply incl_refl]|apply cover_incl; apply incl_refl].
      * apply cover_incl. rewrite A1, A2. inc.
      * apply cover_incl. rewrite B1, B2, A1, A2. inc.
    + eapply live_incl; [|exact C4]. unfold RootModel.roots. cbn [stk arg last]. rewrite C1, B1. inc.
  - apply wp_bind. eapply wp_tested; [exact Hg|exact Hgt|exact L|exact Rx|exact Ry|].
    intros r s1 M1 Er. apply wp_ret. rewrite Er. specialize (K s1 M1). unfold less in K. rewrite !Hk in K. exact K.
Qed.

Section Sort.
Context (pred : fun_t) (g : list tree -> tree) (key : option fun_t) (kf : tree -> tree).
Hypothesis Hg : computes pred g.
Hypothesis Hgt : throws pred -> F.
Hypothesis Hk : key_is key kf.
Hypothesis Hkt : throws_opt key -> F.
Let cmp := SeqModel.compar (less g kf).

(** the elements [E] are on the stack throughout *)
Definition sorting (E : list (val * tree)) (s0 s : state) : Prop :=
  moved s0 s /\ incl (map fst E) (stk s0) /\ contents (hp s0) E.
Lemma sorting_moved E s0 s s' : sorting E s0 s -> moved s s' -> sorting E s0 s'.
Proof. intros (A & B & C) Mv. split; [eapply moved_trans; eauto|auto]. Qed.
Lemma wp_cmp E s0 s x y (Q : bool -> state -> Prop) : sorting E s0 s -> In x E -> In y E ->
  (forall s', sorting E s0 s' -> Q (less g kf x y) s') -> wp (compar glob pred key (fst x) (fst y)) s Q.
Proof.
  intros H Hx Hy K. pose proof H as ((A1 & A2 & A3 & A4) & B & C).
  assert (forall e, In e E -> rep (hp s) (fst e) (snd e)) as R.
  { intros e He. eapply rep_same; [exact A3| |apply (proj1 (Forall_forall _ _) C e He)].
    apply cover_incl. intros z [<-|[]]. apply in_or_app. left. apply B. apply in_map. exact He. }
  eapply wp_compar; [exact Hg|exact Hgt|exact Hk|exact Hkt|exact A4|repeat constructor; auto| |].
  - rewrite A1. apply cover_incl. intros z [<-|[<-|[]]]; apply B; apply in_map; assumption.
  - intros s' Mv. apply K. eapply sorting_moved; eauto.
Qed.
Lemma wp_merge E s0 : forall l1 l2 s (Q : list val -> state -> Prop), sorting E s0 s -> incl l1 E -> incl l2 E ->
  (forall s', sorting E s0 s' -> Q (map fst (SeqModel.merge cmp l1 l2)) s') ->
  wp (merge (compar glob pred key) (map fst l1) (map fst l2)) s Q.
Proof.
  induction l1 as [|x r1 IH1]; intros l2.
  - intros s Q H _ _ K. destruct l2; apply wp_ret; apply K; exact H.
  - induction l2 as [|y r2 IH2]; intros s Q H I1 I2 K; [apply wp_ret; apply K; exact H|].
    change (wp (let! b := compar glob pred key (fst x) (fst y) in
                if b then let! m := merge (compar glob pred key) (map fst r1) (map fst (y :: r2)) in ret (fst x :: m)
                else let! m := merge (compar glob pred key) (map fst (x :: r1)) (map fst r2) in ret (fst y :: m)) s Q).
    apply wp_bind. eapply wp_cmp; [exact H|apply I1; left; reflexivity|apply I2; left; reflexivity|].
    intros s' H'. cbn [SeqModel.merge] in K. unfold cmp at 1, SeqModel.compar at 1 in K.
    destruct (less g kf x y).
    + change (-1 <=? 0)%Z with true in K. cbn iota in K. apply wp_bind. apply IH1; [exact H'|intros e He; apply I1; right; exact He|exact I2|].
      intros s2 H2. apply wp_ret. apply K. exact H2.
    + change (1 <=? 0)%Z with false in K. cbn iota in K. apply wp_bind. apply IH2; [exact H'|exact I1|intros e He; apply I2; right; exact He|].
      intros s2 H2. apply wp_ret. apply K. exact H2.
Qed.
Lemma merge_incl (c : val * tree -> val * tree -> Z) l1 : forall l2 E, incl l1 E -> incl l2 E -> incl (SeqModel.merge c l1 l2) E.
Proof.
  induction l1 as [|x r1 IH1]; intros l2 E; [intros _ I2; destruct l2; exact I2|].
  induction l2 as [|y r2 IH2]; intros I1 I2; [exact I1|]. cbn [SeqModel.merge]. destruct (c x y <=? 0)%Z.
  - intros e [<-|He]; [apply I1; left; reflexivity|]. apply (IH1 (y :: r2) E) in He; auto. intros z Hz. apply I1. right. exact Hz.
  - intros e [<-|He]; [apply I2; left; reflexivity|]. apply IH2 in He; auto. intros z Hz. apply I2. right. exact Hz.
Qed.
Lemma incl_firstn {A} n (l : list A) : incl (firstn n l) l.
Proof. intros x Hx. rewrite <- (firstn_skipn n). apply in_or_app. left. exact Hx. Qed.
Lemma incl_skipn {A} n (l : list A) : incl (skipn n l) l.
Proof. intros x Hx. rewrite <- (firstn_skipn n). apply in_or_app. right. exact Hx. Qed.
Lemma msort_incl (c : val * tree -> val * tree -> Z) fuel : forall l, incl (SeqModel.msort fuel c l) l.
Proof.
  induction fuel as [|f IH]; intros l; [apply incl_refl|]. cbn [SeqModel.msort]. destruct l as [|x [|y l]]; try apply incl_refl.
  apply merge_incl; (eapply incl_tran; [apply IH|]); [apply incl_firstn|apply incl_skipn].
Qed.
Lemma wp_msort E s0 fuel : forall l s (Q : list val -> state -> Prop), sorting E s0 s -> incl l E ->
  (forall s', sorting E s0 s' -> Q (map fst (SeqModel.msort fuel cmp l)) s') ->
  wp (msort fuel (compar glob pred key) (map fst l)) s Q.
Proof.
  induction fuel as [|f IH]; intros l s Q H I1 K; [apply wp_ret; apply K; exact H|].
  cbn [msort SeqModel.msort] in *. destruct l as [|x [|y l]]; [apply wp_ret; apply K; exact H..|].
  cbn [map]. change (fst x :: fst y :: map fst l) with (map fst (x :: y :: l)). rewrite map_length, firstn_map, skipn_map.
  set (n1 := length (x :: y :: l) / 2) in *. apply wp_bind.
  apply IH; [exact H|eapply incl_tran; [apply incl_firstn|exact I1]|]. intros s1 H1. apply wp_bind.
  apply IH; [exact H1|eapply incl_tran; [apply incl_skipn|exact I1]|]. intros s2 H2.
  apply (wp_merge E s0); [exact H2| | |exact K]; (eapply incl_tran; [apply msort_incl|]);
    (eapply incl_tran; [|exact I1]); [apply incl_firstn|apply incl_skipn].
Qed.
End Sort.

(** storing the cars *)
Lemma cells_of h v l : lst h v l -> exists ad, cells h v ad /\ length ad = length l.
Proof.
  unfold lst. intros H. remember Nil as t0. induction H as [t|a x d l t E H IH]; subst.
  - exists []. split; [constructor|reflexivity].
  - destruct (IH eq_refl) as (ad & C & Hl). exists (a :: ad). split; [econstructor; eauto|cbn [length]; congruence].
Qed.
Lemma cells_fun h v ad : cells h v ad -> forall ad', cells h v ad' -> ad = ad'.
Proof.
  induction 1 as [|a x d l E H IH]; intros ad' H'; inversion H'; subst; [reflexivity|].
  match goal with H : h a = Some _ |- _ => rewrite E in H; injection H as <- <- end. f_equal. auto.
Qed.
Lemma cells_in h v ad a : cells h v ad -> In a ad -> exists ad1 ad2, ad = ad1 ++ ad2 /\ cells h (Ptr a) ad2.
Proof.
  induction 1 as [|b x d l E H IH]; intros Hi; [destruct Hi|]. destruct Hi as [->|Hi].
  - exists [], (a :: l). split; [reflexivity|econstructor; eauto].
  - destruct (IH Hi) as (ad1 & ad2 & -> & C). exists (b :: ad1), ad2. auto.
Qed.
Lemma cells_tail_fresh h a x d l : h a = Some (Cons x d) -> cells h d l -> ~ In a l.
Proof.
  intros E C Hi. destruct (cells_in _ _ _ _ C Hi) as (ad1 & ad2 & -> & C2).
  pose proof (cells_fun _ _ _ C2 (a :: ad1 ++ ad2) (cells_cons _ _ _ _ _ E C)) as Eq.
  apply (f_equal (@length nat)) in Eq. cbn [length] in Eq. rewrite app_length in Eq. lia.
Qed.
Lemma cells_set h a c v l : cells h v l -> ~ In a l -> cells (set h a c) v l.
Proof.
  induction 1 as [|b x d l E H IH]; intros Hi; [constructor|]. econstructor.
  - unfold set. destruct (Nat.eqb_spec b a); [subst; destruct Hi; left; reflexivity|exact E].
  - apply IH. intros H'. apply Hi. right. exact H'.
Qed.
(** [h'] is [h] with cars from [l] in the cells [ad] *)
Definition recar (h h' : heap) (ad : list nat) (l : list val) : Prop := forall a,
  (~ In a ad -> h' a = h a) /\
  (In a ad -> exists x y d, h a = Some (Cons x d) /\ h' a = Some (Cons y d) /\ In y l).
Lemma wp_store_cars ad : forall s v l (Q : unit -> state -> Prop), cells (hp s) v ad -> length ad = length l ->
  (forall h', recar (hp s) h' ad l -> lst h' v l -> cells h' v ad -> Q tt (St h' (stk s) (arg s) (last s) (tm s))) ->
  wp (store_cars v l) s Q.
Proof.
  induction ad as [|a ad IH]; intros s v l Q C Hlen K; inversion C as [|a' x d ad' E C1]; subst;
    (destruct l as [|y l]; [|]); cbn [length] in Hlen; try lia; cbn [store_cars].
  - apply wp_ret. specialize (K (hp s)). destruct s; apply K; [|constructor|constructor]. intros a. split; [reflexivity|intros []].
  - apply wp_bind. eapply (wp_look_cons F); [exact E|]. apply wp_bind. unfold RootProofs.wp at 1, store. rewrite E.
    pose proof (cells_tail_fresh _ _ _ _ _ E C1) as Hfr.
    eapply (IH _ d l); cbn [hp stk arg last tm]; [apply cells_set; assumption|lia|].
    intros h' Hr Hl Hc. assert (h' a = Some (Cons y d)) as Ea.
    { destruct (Hr a) as [R1 _]. rewrite (R1 Hfr). apply set_eq. }
    apply K; [|econstructor; eassumption|econstructor; eassumption].
    intros b. destruct (Hr b) as [R1 R2]. unfold set in R1, R2. split.
    + intros Hb. rewrite R1 by (intros H'; apply Hb; right; exact H').
      destruct (Nat.eqb_spec b a); [subst; destruct Hb; left; reflexivity|reflexivity].
    + intros [<-|Hb].
      * exists x, y, d. repeat split; [exact E|exact Ea|left; reflexivity].
      * destruct (R2 Hb) as (x0 & y0 & d0 & A1 & A2 & A3). destruct (Nat.eqb_spec b a); [subst; contradiction|].
        exists x0, y0, d0. repeat split; [exact A1|exact A2|right; exact A3].
Qed.
(** after the stores nothing new is reachable *)
Lemma recar_reach h h' ad l vs : recar h h' ad l -> cover h l vs -> forall b, reach h' vs b -> reach h vs b.
Proof.
  intros Hr Cl b H. induction H as [b H|a c b H IH E Hi]; [apply reach_root; exact H|].
  destruct (in_dec Nat.eq_dec a ad) as [Ha|Ha].
  - destruct (Hr a) as [_ R]. destruct (R Ha) as (x & y & d & A1 & A2 & A3). rewrite A2 in E. injection E as <-.
    destruct Hi as [->|[->|[]]]; [apply Cl; exact A3|]. eapply reach_field; [exact IH|exact A1|right; left; reflexivity].
  - destruct (Hr a) as [R _]. rewrite (R Ha) in E. eapply reach_field; eauto.
Qed.
Lemma recar_live h h' ad l vs : recar h h' ad l -> cover h l vs -> live h vs -> live h' vs.
Proof.
  intros Hr Cl L b H. apply (recar_reach _ _ _ _ _ Hr Cl) in H. specialize (L b H).
  destruct (in_dec Nat.eq_dec b ad) as [Ha|Ha]; destruct (Hr b) as [R1 R2].
  - destruct (R2 Ha) as (x & y & d & A1 & A2 & A3). congruence.
  - rewrite (R1 Ha). exact L.
Qed.
Lemma merge_length (c : val * tree -> val * tree -> Z) l1 : forall l2, length (SeqModel.merge c l1 l2) = length l1 + length l2.
Proof.
  induction l1 as [|x r1 IH1]; intros l2; [destruct l2; reflexivity|].
  induction l2 as [|y r2 IH2]; [cbn [SeqModel.merge length]; lia|]. cbn [SeqModel.merge]. destruct (c x y <=? 0)%Z; cbn [length].
  - rewrite IH1. cbn [length]. lia.
  - cbn [SeqModel.merge] in IH2. rewrite IH2. cbn [length]. lia.
Qed.
Lemma msort_length (c : val * tree -> val * tree -> Z) fuel : forall l, length (SeqModel.msort fuel c l) = length l.
Proof.
  induction fuel as [|f IH]; intros l; [reflexivity|]. cbn [SeqModel.msort]. destruct l as [|x [|y l]]; try reflexivity.
  rewrite merge_length, !IH, <- app_length, firstn_skipn. reflexivity.
Qed.
Lemma cells_same h h' vs v ad : same h h' vs -> cover h [v] vs -> cells h v ad -> cells h' v ad.
Proof.
  intros Sm C H. revert C. induction H as [|a x d l E H IH]; intros C; [constructor|].
  assert (reach h vs a) as R by (apply C; left; reflexivity).
  econstructor; [rewrite (Sm a R); exact E|]. apply IH.
  intros b [->|[]]. eapply reach_field; [exact R|exact E|right; left; reflexivity].
Qed.
Lemma SORT_ok pred g key kf fuel s v els ad : sound glob s ->
  computes pred g -> (throws pred -> F) -> key_is key kf -> (throws_opt key -> F) ->
  nth_error (arg s) 0 = Some v -> lst (hp s) v (map fst els) -> cells (hp s) v ad -> contents (hp s) els -> length els < fuel ->
  sorts glob F v ad (map fst (SeqModel.qsort (SeqModel.compar (less g kf)) els)) s (SORT glob pred key fuel s).
Proof.
  intros L Hg Hgt Hk Hkt Ea Hl Hc Hcon Hf.
  enough (wp (SORT glob pred key fuel) s (fun v' s' => v' = v /\ stk s' = stk s /\
    lst (hp s') v (map fst (SeqModel.qsort (SeqModel.compar (less g kf)) els)) /\ cells (hp s') v ad /\
    (forall a, reach (hp s) (stk s ++ glob) a -> ~ In a ad -> hp s' a = hp s a) /\
    live (hp s') (v :: stk s' ++ glob ++ [last s']))) as H.
  { unfold RootProofs.wp in H. unfold sorts. destruct (SORT glob pred key fuel s); exact H. }
  assert (length ad = length els) as Had.
  { destruct (cells_of _ _ _ Hl) as (ad' & C' & E'). rewrite (cells_fun _ _ _ Hc _ C'), E', map_length. reflexivity. }
  unfold SORT. apply wp_bind. apply (wp_argv F _ _ v); [exact Ea|]. apply wp_bind.
  eapply (wp_push_all F); [exact Hl|exact Logic.I|rewrite map_length; exact Hf|]. cbn [Nat.add].
  set (s1 := St _ _ _ _ _). apply wp_bind. unfold RootProofs.wp at 1, top. change (stk s1) with (rev (map fst els) ++ stk s).
  assert (firstn (length (map fst els)) (rev (map fst els) ++ stk s) = rev (map fst els)) as Ef.
  { rewrite <- (rev_length (map fst els)). apply firstn_app_exact. }
  rewrite Ef, rev_involutive.
  pose proof (cover_arg s 0 v Ea) as Cv.
  pose proof (cover_tail _ _ _ _ (chain_cover _ _ _ _ _ Cv Hl)) as Ce.
  assert (live (hp s1) (roots s1)) as L1.
  { apply (live_pushed glob s); [exact L|]. apply cover_rev. eapply cover_weaken; [exact Ce|apply arg_roots]. }
  apply wp_bind. rewrite map_length.
  eapply (wp_msort pred g key kf Hg Hgt Hk Hkt els s1 (length els) els s1); [|apply incl_refl|].
  { split; [apply moved_refl; exact L1|]. split; [|exact Hcon]. unfold s1. cbn [stk]. intros x Hx. apply in_or_app. left.
    apply in_rev. rewrite rev_involutive. exact Hx. }
  intros s2 ((A1 & A2 & A3 & A4) & _ & _).
  assert (same (hp s) (hp s2) (map fst els ++ stk s ++ arg s ++ glob)) as S2.
  { eapply same_cover; [|exact A3]. apply cover_incl. unfold s1. cbn [stk arg]. intros x Hx.
    repeat (rewrite ?in_app_iff in * ). rewrite <- in_rev. tauto. }
  assert (cover (hp s2) [v] (arg s)) as Cv2.
  { eapply same_coverage; [eapply same_cover; [|exact S2]; apply cover_incl; inc|exact Cv]. }
  assert (cover (hp s2) (map fst els) (arg s)) as Ce2.
  { eapply same_coverage; [eapply same_cover; [|exact S2]; apply cover_incl; inc|exact Ce]. }
  fold (SeqModel.qsort (SeqModel.compar (less g kf)) els).
  set (sorted := SeqModel.qsort _ els).
  assert (incl (map fst sorted) (map fst els)) as Hinc.
  { intros x Hx. apply in_map_iff in Hx as (e & <- & He). apply in_map. apply (msort_incl _ _ _ _ He). }
  apply wp_bind. eapply (wp_store_cars ad).
  - eapply cells_same; [exact S2|eapply cover_weaken; [exact Cv|inc]|exact Hc].
  - rewrite map_length. unfold sorted, SeqModel.qsort. rewrite msort_length. exact Had.
  - intros h' Hr Hl' Hc'. apply wp_bind. rewrite <- (map_length fst els), <- rev_length.
    apply (wp_drop F _ _ (stk s)); [cbn [stk]; rewrite A1; reflexivity|]. apply wp_ret. cbn [stk hp arg last].
    repeat split; [exact Hl'|exact Hc'| |].
    + intros a Ra Na. destruct (Hr a) as [R _]. rewrite (R Na). apply S2. eapply reach_cover; [|exact Ra]. apply cover_incl. inc.
    + eapply (recar_live (hp s2) h' ad (map fst sorted) (v :: stk s ++ arg s ++ glob ++ [last s2])) in Hr.
      * eapply live_incl; [|exact Hr]. inc.
      * intros b Hb. eapply reach_cover; [|apply Ce2; apply Hinc; exact Hb]. apply cover_incl. inc.
      * eapply live_cover; [|exact A4]. apply cover_cons; [eapply cover_weaken; [exact Cv2|]|apply cover_incl];
          unfold RootModel.roots; rewrite A1, A2; unfold s1; cbn [stk arg]; inc.
Qed.
End Proofs3.
