(** Proofs for C84. *)
From Coq Require Import List Arith Bool Lia.
From Verif Require Import RootModel RootSpec.
Import ListNotations.

(** ** Reachability *)
Definition cover (h : heap) (vs ws : list val) : Prop := forall a, In (Ptr a) vs -> reach h ws a.

Lemma cover_incl h vs ws : incl vs ws -> cover h vs ws.
Proof. intros H a Ha. apply reach_root. auto. Qed.
Lemma reach_cover h vs ws a : cover h vs ws -> reach h vs a -> reach h ws a.
Proof. intros C H. induction H; [auto|eapply reach_field; eauto]. Qed.
Lemma live_cover h vs ws : cover h vs ws -> live h ws -> live h vs.
Proof. intros C L a H. apply L. eapply reach_cover; eauto. Qed.
Lemma same_cover h h' vs ws : cover h vs ws -> same h h' ws -> same h h' vs.
Proof. intros C L a H. apply L. eapply reach_cover; eauto. Qed.
Lemma cover_trans h us vs ws : cover h us vs -> cover h vs ws -> cover h us ws.
Proof. intros C D a Ha. eapply reach_cover; eauto. Qed.
Lemma cover_app h us vs ws : cover h us ws -> cover h vs ws -> cover h (us ++ vs) ws.
Proof. intros C D a Ha. apply in_app_or in Ha as [?|?]; auto. Qed.
Lemma cover_cons h u vs ws : cover h [u] ws -> cover h vs ws -> cover h (u :: vs) ws.
Proof. intros C D a [->|Ha]; [apply C; left; reflexivity|auto]. Qed.
Lemma cover_nil h ws : cover h [] ws.
Proof. intros a []. Qed.
Lemma cover_in h u vs ws : cover h vs ws -> In u vs -> cover h [u] ws.
Proof. intros C H a [->|[]]. auto. Qed.
Lemma cover_weaken h vs ws ws' : cover h vs ws -> incl ws ws' -> cover h vs ws'.
Proof. intros C H. eapply cover_trans; [exact C|apply cover_incl; exact H]. Qed.

Lemma same_reach h h' vs a : same h h' vs -> reach h vs a -> reach h' vs a.
Proof.
  intros Sm H. induction H; [apply reach_root; assumption|].
  eapply reach_field; [exact IHreach| |exact H1]. rewrite (Sm a H). exact H0.
Qed.
Lemma same_reach_inv h h' vs a : same h h' vs -> reach h' vs a -> reach h vs a.
Proof.
  intros Sm H. induction H; [apply reach_root; assumption|].
  eapply reach_field; [exact IHreach| |exact H1]. rewrite <- (Sm a IHreach). exact H0.
Qed.
Lemma same_live h h' vs : same h h' vs -> live h vs -> live h' vs.
Proof. intros Sm L a H. apply (same_reach_inv h) in H; [|exact Sm]. rewrite (Sm a H). auto. Qed.
Lemma same_coverage h h' vs ws : same h h' ws -> cover h vs ws -> cover h' vs ws.
Proof. intros Sm C a Ha. eapply same_reach; eauto. Qed.
Lemma same_refl h vs : same h h vs.
Proof. intros a _. reflexivity. Qed.
Lemma same_trans h1 h2 h3 vs ws : same h1 h2 vs -> same h2 h3 ws -> cover h2 vs ws -> same h1 h3 vs.
Proof.
  intros A B C a Ha. rewrite <- (A a Ha). apply B. eapply reach_cover; [exact C|]. eapply same_reach; eauto.
Qed.
Lemma live_app h vs ws : live h vs -> live h ws -> live h (vs ++ ws).
Proof.
  intros A B a H. assert (reach h vs a \/ reach h ws a) as [?|?]; [|auto|auto].
  induction H as [a H|a c b H IH E F].
  - apply in_app_or in H as [?|?]; [left|right]; apply reach_root; assumption.
  - destruct IH; [left|right]; eapply reach_field; eauto.
Qed.
Lemma live_cons h v vs : live h [v] -> live h vs -> live h (v :: vs).
Proof. intros A B. apply (live_app h [v] vs); assumption. Qed.
Lemma live_incl h vs ws : incl vs ws -> live h ws -> live h vs.
Proof. intros H. apply live_cover. apply cover_incl. exact H. Qed.
Lemma live_nil h : live h [].
Proof. intros a H. assert (forall a, reach h [] a -> False) as F; [|destruct (F a H)]. clear. induction 1; auto. Qed.
Lemma live_atom h v vs : (forall a, v <> Ptr a) -> live h vs -> live h (v :: vs).
Proof. intros N. apply live_cover. intros a [->|H]; [destruct (N a eq_refl)|apply reach_root; exact H]. Qed.

Ltac inc := let H := fresh in intros ? H; repeat (rewrite ?in_app_iff in *; cbn [In] in *); tauto.

(** ** Lists and trees in equal heaps *)
Lemma chain_same h h' vs v l t : same h h' vs -> cover h [v] vs -> chain h v l t -> chain h' v l t.
Proof.
  intros Sm C H. revert C. induction H as [t|a x d l t E H IH]; intros C; [constructor|].
  assert (reach h vs a) as R by (apply C; left; reflexivity).
  econstructor; [rewrite (Sm a R); exact E|]. apply IH.
  intros b [->|[]]. eapply reach_field; [exact R|exact E|right; left; reflexivity].
Qed.
Lemma chain_cover h vs v l t : cover h [v] vs -> chain h v l t -> cover h (t :: l) vs.
Proof.
  intros C H. revert C. induction H as [t|a x d l t E H IH]; intros C; [exact C|].
  assert (reach h vs a) as R by (apply C; left; reflexivity).
  assert (cover h [d] vs) as Cd.
  { intros b [->|[]]. eapply reach_field; [exact R|exact E|right; left; reflexivity]. }
  specialize (IH Cd). apply cover_cons; [eapply cover_in; [exact IH|left; reflexivity]|].
  apply cover_cons; [|intros b Hb; apply IH; right; exact Hb].
  intros b [->|[]]. eapply reach_field; [exact R|exact E|left; reflexivity].
Qed.
Lemma rep_same h h' vs v t : same h h' vs -> cover h [v] vs -> rep h v t -> rep h' v t.
Proof.
  intros Sm C H. revert C. induction H as [|n|a x d tx td E H1 IH1 H2 IH2]; intros C; [constructor|constructor|].
  assert (reach h vs a) as R by (apply C; left; reflexivity).
  econstructor; [rewrite (Sm a R); exact E|apply IH1|apply IH2];
    intros b [->|[]]; (eapply reach_field; [exact R|exact E|cbn; auto]).
Qed.
Lemma reach_atom h v a : (forall b, v <> Ptr b) -> ~ reach h [v] a.
Proof. intros N H. induction H as [a [H|[]]|]; [exact (N a H)|assumption]. Qed.
Lemma rep_live h v t : rep h v t -> live h [v].
Proof.
  induction 1 as [|n|a x d tx td E H1 IH1 H2 IH2].
  - intros a H. now apply reach_atom in H.
  - intros a H. now apply reach_atom in H.
  - intros b H. assert (b = a \/ reach h [x] b \/ reach h [d] b) as [->|[?|?]]; [|congruence|auto|auto].
    induction H as [b [H|[]]|b c e H IH E' F]; [left; congruence|].
    destruct IH as [->|[R|R]].
    + rewrite E in E'. injection E' as <-. destruct F as [->|[->|[]]]; right; [left|right]; apply reach_root; left; reflexivity.
    + right; left. eapply reach_field; eauto.
    + right; right. eapply reach_field; eauto.
Qed.
Lemma Forall2_rep_same h h' vs l ts : same h h' vs -> cover h l vs -> Forall2 (rep h) l ts -> Forall2 (rep h') l ts.
Proof.
  intros Sm C H. induction H as [|x t l ts H _ IH]; constructor.
  - eapply rep_same; [exact Sm|eapply cover_in; [exact C|left; reflexivity]|exact H].
  - apply IH. intros a Ha. apply C. right. exact Ha.
Qed.

(** a fresh cell changes nothing reachable *)
Lemma set_same h a c vs : h a = None -> live h vs -> same h (set h a c) vs.
Proof.
  intros E L b R. unfold set. destruct (Nat.eqb_spec b a); [subst; destruct (L a R E)|reflexivity].
Qed.
Lemma set_eq h a c : set h a c a = Some c.
Proof. unfold set. now rewrite Nat.eqb_refl. Qed.
Lemma set_set h a c c' : forall b, set (set h a c) a c' b = set h a c' b.
Proof. intros b. unfold set. destruct (Nat.eqb b a); reflexivity. Qed.
Lemma same_ext h h1 h2 vs : (forall b, h1 b = h2 b) -> same h h1 vs -> same h h2 vs.
Proof. intros E Sm a R. rewrite <- E. auto. Qed.
Lemma live_new h a c vs : h a = Some c -> live h (fields c ++ vs) -> live h (Ptr a :: vs).
Proof.
  intros E L b R. assert (b = a \/ reach h (fields c ++ vs) b) as [->|?]; [|congruence|auto].
  induction R as [b [H|H]|b c' e R IH E' F].
  - left. congruence.
  - right. apply reach_root. apply in_or_app. right. exact H.
  - destruct IH as [->|R'].
    + right. apply reach_root. apply in_or_app. left. congruence.
    + right. eapply reach_field; eauto.
Qed.

(** ** Weakest preconditions *)
Definition wp {A} (F : Prop) (m : M A) (s : state) (Q : A -> state -> Prop) : Prop :=
  match m s with Done a s' => Q a s' | Fail => F | Dead | Loop => False end.
Lemma wp_bind {A B} F (m : M A) (k : A -> M B) s Q :
  wp F m s (fun a s1 => wp F (k a) s1 Q) -> wp F (bind m k) s Q.
Proof. unfold wp, bind. destruct (m s); auto. Qed.
Lemma wp_ret {A} F (a : A) s (Q : A -> state -> Prop) : Q a s -> wp F (ret a) s Q.
Proof. intros H. exact H. Qed.
Lemma wp_mono {A} F (m : M A) s (Q Q' : A -> state -> Prop) :
  wp F m s Q -> (forall a s', Q a s' -> Q' a s') -> wp F m s Q'.
Proof. unfold wp. intros H I'. destruct (m s); auto. Qed.

Section Proofs.
Context (env : env_t) (glob : list val) (F : Prop).
Hypothesis Henv : keeps env.
Hypothesis Hoom : oom env -> F.
Notation roots := (roots glob).
Notation cons := (RootModel.cons env glob).
Notation wp := (wp F).
Definition frame (s : state) : list val := stk s ++ arg s ++ glob.
Lemma roots_frame s : roots s = frame s ++ [last s].
Proof. unfold RootModel.roots, frame. rewrite !app_assoc. reflexivity. Qed.

Lemma wp_alloc c s (Q : val -> state -> Prop) : live (hp s) (roots s) ->
  (forall a h', same (hp s) h' (roots s) -> h' a = None -> Q (Ptr a) (St (set h' a c) (stk s) (arg s) (Ptr a) (S (tm s)))) ->
  wp (alloc env glob c) s Q.
Proof.
  intros L K. unfold RootProofs.wp, alloc. destruct (env _ _ _) as [[h' a]|] eqn:E.
  - destruct (Henv _ _ _ _ _ E L). apply K; assumption.
  - apply Hoom. eexists _, _, _. exact E.
Qed.

Lemma wp_look s v (Q : option (val * val) -> state -> Prop) : live (hp s) (roots s) -> cover (hp s) [v] (roots s) ->
  (ends (hp s) v -> Q None s) ->
  (forall a x d, v = Ptr a -> hp s a = Some (Cons x d) -> Q (Some (x, d)) s) ->
  wp (look v) s Q.
Proof.
  intros L C K1 K2. unfold RootProofs.wp, look. destruct v as [|n|a]; [apply K1; exact Logic.I..|].
  destruct (hp s a) as [[x d|l]|] eqn:E; [eapply K2; eauto|apply K1; exists l; exact E|].
  apply (L a); [apply C; left; reflexivity|exact E].
Qed.

Lemma wp_cons a d s (Q : val -> state -> Prop) : live (hp s) (a :: d :: roots s) ->
  (forall c s', stk s' = stk s -> arg s' = arg s -> last s' = Ptr c -> same (hp s) (hp s') (a :: d :: roots s) ->
    hp s' c = Some (Cons a d) -> live (hp s') (Ptr c :: a :: d :: roots s ++ roots s') -> Q (Ptr c) s') ->
  wp (cons a d) s Q.
Proof.
  intros L K. unfold RootModel.cons. unfold push. cbn [bind]. unfold bind at 1. unfold bind at 1.
  apply wp_bind. apply wp_alloc.
  { eapply live_incl; [|exact L]. unfold RootModel.roots. cbn [stk arg last hp]. inc. }
  cbn [hp stk arg last tm]. intros c h' Sm Ec.
  assert (same (hp s) h' (a :: d :: roots s)) as Sm'.
  { eapply same_cover; [|exact Sm]. apply cover_incl. unfold RootModel.roots. cbn [stk arg last hp]. inc. }
  clear Sm. unfold drop, store, ret, bind, RootProofs.wp. cbn [stk length hp skipn arg last tm].
  rewrite (proj2 (Nat.ltb_ge _ _)) by lia. cbn [hp]. rewrite set_eq.
  assert (same h' (set (set h' c (Cons Nil Nil)) c (Cons a d)) (a :: d :: roots s)) as S2.
  { eapply same_ext; [intros b; symmetry; apply set_set|]. apply set_same; [exact Ec|]. eapply same_live; eauto. }
  assert (same (hp s) (set (set h' c (Cons Nil Nil)) c (Cons a d)) (a :: d :: roots s)) as S3.
  { eapply same_trans; [exact Sm'|exact S2|apply cover_incl; apply incl_refl]. }
  apply K; cbn [hp stk arg last]; try reflexivity; [exact S3|apply set_eq|].
  apply (live_incl _ _ (Ptr c :: a :: d :: roots s)).
  { unfold RootModel.roots. cbn [stk arg last hp]. inc. }
  eapply live_new; [apply set_eq|]. cbn [fields].
  eapply live_incl; [|eapply same_live; [exact S3|exact L]]. cbn [app]. inc.
Qed.

Lemma wp_argv s i v (Q : val -> state -> Prop) : nth_error (arg s) i = Some v -> Q v s -> wp (argv i) s Q.
Proof. intros E H. unfold RootProofs.wp, argv. rewrite E. exact H. Qed.
Lemma wp_peek s i v (Q : val -> state -> Prop) : nth_error (stk s) i = Some v -> Q v s -> wp (peek i) s Q.
Proof. intros E H. unfold RootProofs.wp, peek. rewrite E. exact H. Qed.
Lemma wp_drop s p B (Q : unit -> state -> Prop) : stk s = p ++ B -> Q tt (St (hp s) B (arg s) (last s) (tm s)) ->
  wp (drop (length p)) s Q.
Proof.
  intros E H. unfold RootProofs.wp, drop. rewrite E, app_length, (proj2 (Nat.ltb_ge _ _)) by lia.
  rewrite skipn_app, skipn_all, Nat.sub_diag. exact H.
Qed.

(** ** Building a list from the stack *)
Lemma wp_pop_cons xs B : forall s r l t (Q : val -> state -> Prop),
  stk s = xs ++ B -> live (hp s) (r :: roots s) -> chain (hp s) r l t ->
  (forall r' s', stk s' = B -> arg s' = arg s -> same (hp s) (hp s') (r :: B ++ arg s ++ glob) ->
     live (hp s') (r' :: roots s') -> chain (hp s') r' (rev xs ++ l) t -> cover (hp s') [r] [r'] -> Q r' s') ->
  wp (pop_cons env glob (length xs) r) s Q.
Proof.
  induction xs as [|x xs IH]; intros s r l t Q Es L C K; cbn [length pop_cons].
  - apply wp_ret. apply K; [exact Es|reflexivity|apply same_refl|exact L|exact C|apply cover_incl; apply incl_refl].
  - apply wp_bind. unfold RootProofs.wp at 1, pop. rewrite Es. cbn [app].
    apply wp_bind. apply wp_cons; cbn [hp].
    { eapply live_incl; [|exact L]. unfold RootModel.roots. cbn [stk arg last]. rewrite Es. cbn [app]. inc. }
    intros c s2 E1 E2 E3 Sm Ec L2. cbn [stk arg hp last] in *.
    apply (IH s2 (Ptr c) (x :: l) t).
    + exact E1.
    + eapply live_incl; [|exact L2]. inc.
    + econstructor; [exact Ec|]. eapply chain_same; [exact Sm|apply cover_incl; inc|exact C].
    + intros r' s' F1 F2 F3 F4 F5 F6. apply K; [exact F1|congruence| |exact F4|cbn [rev]; rewrite <- app_assoc; exact F5|].
      { eapply same_trans; [|exact F3|].
        * eapply same_cover; [|exact Sm]. apply cover_incl. unfold RootModel.roots. cbn [stk arg]. inc.
        * rewrite E2. apply cover_cons; [|apply cover_incl; inc].
          intros b [->|[]]. eapply reach_field; [apply reach_root; left; reflexivity|exact Ec|right; left; reflexivity]. }
      { eapply cover_trans; [|exact F6]. intros b [->|[]].
        apply (reach_field _ _ c (Cons x (Ptr b))); [apply reach_root; left; reflexivity| |right; left; reflexivity].
        rewrite (F3 c); [exact Ec|apply reach_root; left; reflexivity]. }
Qed.

Lemma nth_error_mid {A} (p : list A) x q : nth_error (p ++ x :: q) (length p) = Some x.
Proof. rewrite nth_error_app2, Nat.sub_diag by lia. reflexivity. Qed.

Lemma wp_stacknlist_loop xs B : forall p s r l (Q : val -> state -> Prop),
  stk s = p ++ xs ++ B -> live (hp s) (r :: roots s) -> lst (hp s) r l ->
  (forall r' s', stk s' = B -> arg s' = arg s -> same (hp s) (hp s') (r :: p ++ xs ++ B ++ arg s ++ glob) ->
     live (hp s') (r' :: roots s') -> lst (hp s') r' (rev xs ++ l) -> Q r' s') ->
  wp (stacknlist_loop env glob (length xs) (length p) r) s Q.
Proof.
  induction xs as [|x xs IH]; intros p s r l Q Es L C K; cbn [length stacknlist_loop].
  - apply wp_bind. apply (wp_drop _ _ B); [exact Es|]. apply wp_ret.
    apply K; cbn [stk arg hp]; [reflexivity|reflexivity|apply same_refl| |exact C].
    eapply live_incl; [|exact L]. unfold RootModel.roots. cbn [stk arg last]. rewrite Es. cbn [app]. inc.
  - apply wp_bind. apply (wp_peek _ _ x); [rewrite Es; apply nth_error_mid|].
    apply wp_bind. apply wp_cons.
    { eapply live_incl; [|exact L]. unfold RootModel.roots. cbn [stk arg last]. rewrite Es. cbn [app]. inc. }
    intros c s2 E1 E2 E3 Sm Ec L2.
    replace (S (length p)) with (length (p ++ [x])) by (rewrite app_length; cbn [length]; lia).
    apply (IH (p ++ [x]) s2 (Ptr c) (x :: l)).
    + rewrite E1, Es, <- app_assoc. reflexivity.
    + eapply live_incl; [|exact L2]. inc.
    + econstructor; [exact Ec|]. eapply chain_same; [exact Sm|apply cover_incl; inc|exact C].
    + intros r' s' F1 F2 F3 F4 F5. apply K; [exact F1|congruence| |exact F4|cbn [rev]; rewrite <- app_assoc; exact F5].
      eapply same_trans; [|exact F3|].
      * eapply same_cover; [|exact Sm]. apply cover_incl. unfold RootModel.roots. cbn [stk arg]. rewrite Es. cbn [app]. inc.
      * rewrite E2. apply cover_cons; [|apply cover_incl; inc].
        intros b [->|[]]. eapply reach_field; [apply reach_root; left; reflexivity|exact Ec|right; left; reflexivity].
Qed.
Lemma wp_stacknlist xs B s (Q : val -> state -> Prop) :
  stk s = xs ++ B -> live (hp s) (roots s) ->
  (forall r' s', stk s' = B -> arg s' = arg s -> same (hp s) (hp s') (xs ++ B ++ arg s ++ glob) ->
     live (hp s') (r' :: roots s') -> lst (hp s') r' (rev xs) -> Q r' s') ->
  wp (stacknlist env glob (length xs)) s Q.
Proof.
  intros Es L K. apply (wp_stacknlist_loop xs B [] s Nil []); [exact Es|apply live_atom; [discriminate|exact L]|constructor|].
  intros r' s' F1 F2 F3 F4 F5. apply K; [exact F1|exact F2| |exact F4|rewrite app_nil_r in F5; exact F5].
  eapply same_cover; [|exact F3]. apply cover_incl. inc.
Qed.

(** ** Walking down a list *)
Lemma wp_look_cons s a x d (Q : option (val * val) -> state -> Prop) :
  hp s a = Some (Cons x d) -> Q (Some (x, d)) s -> wp (look (Ptr a)) s Q.
Proof. intros E H. unfold RootProofs.wp, look. rewrite E. exact H. Qed.
Lemma wp_look_end s v (Q : option (val * val) -> state -> Prop) : ends (hp s) v -> Q None s -> wp (look v) s Q.
Proof. intros E H. unfold RootProofs.wp, look. destruct v as [|n|a]; [exact H..|]. destruct E as [l E]. rewrite E. exact H. Qed.

Lemma wp_push_all l : forall fuel s a i t (Q : nat * val -> state -> Prop),
  chain (hp s) a l t -> ends (hp s) t -> length l < fuel ->
  Q (i + length l, t) (St (hp s) (rev l ++ stk s) (arg s) (last s) (tm s)) -> wp (push_all fuel a i) s Q.
Proof.
  induction l as [|x l IH]; intros fuel s a i t Q C E Hf K; (destruct fuel as [|fuel]; [cbn [length] in Hf; lia|]); cbn [push_all].
  - inversion C; subst. apply wp_bind. apply wp_look_end; [exact E|]. apply wp_ret. rewrite Nat.add_0_r in K.
    cbn [rev app] in K. destruct s; exact K.
  - inversion C as [|a' x' d l' t' E1 C1]; subst. apply wp_bind. eapply wp_look_cons; [exact E1|].
    apply wp_bind. unfold RootProofs.wp at 1, push. cbn [length] in Hf.
    eapply IH; cbn [hp stk arg last tm]; [exact C1|exact E|lia|].
    cbn [rev length] in K. rewrite <- app_assoc in K. cbn [app] in K. replace (S i + length l) with (i + S (length l)) by lia. exact K.
Qed.
Lemma wp_push_upto l : forall n s a i t (Q : nat * val -> state -> Prop),
  chain (hp s) a l t -> ends (hp s) t ->
  (forall rest, chain (hp s) rest (skipn n l) t -> (forall vs, cover (hp s) [a] vs -> cover (hp s) [rest] vs) ->
     Q (i + length (firstn n l), rest) (St (hp s) (rev (firstn n l) ++ stk s) (arg s) (last s) (tm s))) ->
  wp (push_upto n a i) s Q.
Proof.
  induction l as [|x l IH]; intros n s a i t Q C E K; (destruct n as [|n]; cbn [push_upto]).
  - apply wp_ret. rewrite Nat.add_0_r in K. destruct s; apply K; [exact C|auto].
  - inversion C; subst. apply wp_bind. apply wp_look_end; [exact E|]. apply wp_ret.
    cbn [firstn length] in K. rewrite Nat.add_0_r in K. destruct s; apply K; [exact C|auto].
  - apply wp_ret. cbn [firstn length] in K. rewrite Nat.add_0_r in K. destruct s; apply K; [exact C|auto].
  - inversion C as [|a' x' d l' t' E1 C1]; subst. apply wp_bind. eapply wp_look_cons; [exact E1|].
    apply wp_bind. unfold RootProofs.wp at 1, push.
    eapply IH; cbn [hp stk arg last tm]; [exact C1|exact E|].
    intros rest Hr Hc. cbn [firstn skipn rev length] in K. specialize (K rest Hr).
    rewrite <- app_assoc in K. cbn [app] in K.
    replace (S i + length (firstn n l)) with (i + S (length (firstn n l))) by lia. apply K.
    intros vs Hv. apply Hc. intros b [->|[]]. eapply reach_field; [apply Hv; left; reflexivity|exact E1|right; left; reflexivity].
Qed.

Lemma live_pushed s l : live (hp s) (roots s) -> cover (hp s) l (roots s) ->
  live (hp s) (roots (St (hp s) (l ++ stk s) (arg s) (last s) (tm s))).
Proof.
  intros L C. eapply live_cover; [|exact L]. unfold RootModel.roots. cbn [stk arg last].
  rewrite <- app_assoc. apply cover_app; [exact C|apply cover_incl; apply incl_refl].
Qed.
Lemma cover_rev h l vs : cover h l vs -> cover h (rev l) vs.
Proof. intros C a H. apply C. apply in_rev. exact H. Qed.
Lemma cover_arg s i v : nth_error (arg s) i = Some v -> cover (hp s) [v] (arg s).
Proof. intros E. apply cover_incl. intros x [<-|[]]. eapply nth_error_In; eauto. Qed.
Lemma arg_roots s : incl (arg s) (roots s).
Proof. unfold RootModel.roots. inc. Qed.
Lemma cover_tail h l t vs : cover h (t :: l) vs -> cover h l vs.
Proof. intros C a H. apply C. right. exact H. Qed.

(** What the primitives leave: [B] is the stack of the caller. *)
Definition leaves (s : state) (Q : heap -> val -> Prop) (v : val) (s' : state) : Prop :=
  stk s' = stk s /\ arg s' = arg s /\ same (hp s) (hp s') (stk s ++ arg s ++ glob) /\ live (hp s') (v :: roots s') /\ Q (hp s') v.
Lemma leaves_behaves s Q (m : M val) : wp m s (leaves s Q) -> behaves glob F Q s (m s).
Proof.
  unfold RootProofs.wp, behaves. destruct (m s) as [v s'| | |]; auto. intros (A & B & C & D & E).
  repeat split; [exact A| | |exact E].
  - eapply same_cover; [|exact C]. apply cover_incl. inc.
  - eapply live_incl; [|exact D]. unfold RootModel.roots. inc.
Qed.

Lemma wp_list_loop n : forall s r l t (Q : val -> state -> Prop), n <= length (arg s) ->
  live (hp s) (r :: roots s) -> chain (hp s) r l t ->
  (forall r' s', stk s' = stk s -> arg s' = arg s -> same (hp s) (hp s') (r :: stk s ++ arg s ++ glob) ->
     live (hp s') (r' :: roots s') -> chain (hp s') r' (firstn n (arg s) ++ l) t -> Q r' s') ->
  wp (list_loop env glob n r) s Q.
Proof.
  induction n as [|n IH]; intros s r l t Q Hn L C K; cbn [list_loop].
  - apply wp_ret. apply K; auto using same_refl.
  - apply wp_bind. destruct (nth_error (arg s) n) as [x|] eqn:E; [|apply nth_error_None in E; lia].
    apply (wp_argv _ _ x); [exact E|]. apply wp_bind. apply wp_cons.
    { eapply live_incl; [|exact L]. apply nth_error_In in E. intros v [<-|Hv]; [|exact Hv]. right. apply arg_roots. exact E. }
    intros c s2 E1 E2 E3 Sm Ec L2. apply (IH s2 (Ptr c) (x :: l) t).
    + rewrite E2. lia.
    + eapply live_incl; [|exact L2]. inc.
    + econstructor; [exact Ec|]. eapply chain_same; [exact Sm|apply cover_incl; inc|exact C].
    + intros r' s' F1 F2 F3 F4 F5. apply K; [congruence|congruence| |exact F4|].
      * eapply same_trans; [|exact F3|].
        -- eapply same_cover; [|exact Sm]. apply cover_incl. unfold RootModel.roots. inc.
        -- rewrite E1, E2. apply cover_cons; [|apply cover_incl; inc].
           intros b [->|[]]. eapply reach_field; [apply reach_root; left; reflexivity|exact Ec|right; left; reflexivity].
      * rewrite E2 in F5. destruct (nth_error_split _ _ E) as (l1 & l2 & El & Hl). rewrite El in F5 |- *. subst n.
        rewrite firstn_app, firstn_all, Nat.sub_diag in F5. cbn [firstn] in F5. rewrite app_nil_r in F5.
        rewrite firstn_app, firstn_all2 by lia. replace (S (length l1) - length l1) with 1 by lia. cbn [firstn].
        rewrite <- app_assoc. exact F5.
Qed.

Lemma LIST_ok s : sound glob s ->
  wp (LIST env glob (length (arg s))) s (leaves s (fun h v => lst h v (arg s))).
Proof.
  intros L. unfold LIST. eapply wp_list_loop; [lia|apply live_atom; [discriminate|exact L]|constructor|].
  intros r' s' E1 E2 Sm L' C. rewrite firstn_all, app_nil_r in C. repeat split; auto.
  eapply same_cover; [|exact Sm]. apply cover_incl. inc.
Qed.
Lemma nth_error_last {A} (l : list A) x : nth_error (l ++ [x]) (length l) = Some x.
Proof. apply nth_error_mid. Qed.
Lemma LIST_STAR_ok s l t : sound glob s -> arg s = l ++ [t] ->
  wp (LIST_STAR env glob (length (arg s))) s (leaves s (fun h v => chain h v l t)).
Proof.
  intros L Ea. unfold LIST_STAR. apply wp_bind. rewrite Ea, app_length. cbn [length].
  replace (length l + 1 - 1) with (length l) by lia.
  apply (wp_argv _ _ t); [rewrite Ea; apply nth_error_last|].
  eapply wp_list_loop; [rewrite Ea, app_length; lia| |constructor|].
  - eapply live_incl; [|exact L]. intros v [<-|Hv]; [|exact Hv]. rewrite Ea. repeat (rewrite ?in_app_iff; cbn [In]). tauto.
  - intros r' s' E1 E2 Sm L' C. rewrite Ea, firstn_app, firstn_all, Nat.sub_diag in C. cbn [firstn] in C.
    rewrite !app_nil_r in C. repeat split; auto. eapply same_cover; [|exact Sm]. apply cover_incl. inc.
Qed.

Lemma wp_append_loop fuel n : forall s ls r l t (Q : val -> state -> Prop), n <= length (arg s) ->
  Forall2 (lst (hp s)) (firstn n (arg s)) ls -> (forall l, In l ls -> length l < fuel) ->
  live (hp s) (r :: roots s) -> chain (hp s) r l t ->
  (forall r' s', stk s' = stk s -> arg s' = arg s -> same (hp s) (hp s') (r :: stk s ++ arg s ++ glob) ->
     live (hp s') (r' :: roots s') -> chain (hp s') r' (concat ls ++ l) t -> Q r' s') ->
  wp (append_loop env glob fuel n r) s Q.
Proof.
  induction n as [|n IH]; intros s ls r l t Q Hn Hl Hf L C K; cbn [append_loop].
  - cbn [firstn] in Hl. inversion Hl; subst. apply wp_ret. apply K; auto using same_refl.
  - apply wp_bind. destruct (nth_error (arg s) n) as [a|] eqn:E; [|apply nth_error_None in E; lia].
    apply (wp_argv _ _ a); [exact E|].
    destruct (nth_error_split _ _ E) as (l1 & l2 & El & Hl1).
    assert (firstn (S n) (arg s) = firstn n (arg s) ++ [a]) as Ef.
    { rewrite El. subst n. rewrite !firstn_app, firstn_all, firstn_all2, Nat.sub_diag by lia.
      replace (S (length l1) - length l1) with 1 by lia. cbn [firstn]. rewrite app_nil_r. reflexivity. }
    rewrite Ef in Hl. apply Forall2_app_inv_l in Hl as (ls1 & lx & Hl & Hx & ->).
    inversion Hx as [|? la ? ? Ha Hx']; subst. inversion Hx'; subst. clear Hx Hx'.
    assert (wp (let! (i, _) := push_all fuel a 0 in let! r' := pop_cons env glob i r in
                append_loop env glob fuel (length l1) r') s Q) as Hmain.
    { apply wp_bind. eapply wp_push_all; [exact Ha|exact Logic.I|apply Hf; apply in_or_app; right; left; reflexivity|].
      cbn [Nat.add]. rewrite <- (rev_length la). apply wp_bind.
      assert (cover (hp s) (rev la) (arg s)) as Cla.
      { apply cover_rev. eapply cover_tail. eapply chain_cover; [eapply cover_arg; exact E|exact Ha]. }
      eapply wp_pop_cons; [reflexivity| |exact C|].
      - cbn [hp]. apply live_cons; [eapply live_incl; [|exact L]; inc|].
        apply live_pushed; [eapply live_incl; [|exact L]; inc|].
        eapply cover_weaken; [exact Cla|apply arg_roots].
      - cbn [hp stk arg]. rewrite rev_involutive. intros r1 s1 E1 E2 Sm1 L1 C1 Cr.
        assert (same (hp s) (hp s1) (arg s)) as Sa by (eapply same_cover; [|exact Sm1]; apply cover_incl; inc).
        eapply (IH s1 ls1 r1 (la ++ l) t).
        + rewrite E2. lia.
        + rewrite E2. clear - Hl Sa. assert (incl (firstn (length l1) (arg s)) (arg s)) as Hi.
          { intros x Hx. rewrite <- (firstn_skipn (length l1)). apply in_or_app. left. exact Hx. }
          revert Hi. induction Hl as [|x y xs ys H1 H2 IH2]; intros Hi; constructor.
          * eapply chain_same; [exact Sa|apply cover_incl; intros z [<-|[]]; apply Hi; left; reflexivity|exact H1].
          * apply IH2. intros z Hz. apply Hi. right. exact Hz.
        + intros lx Hlx. apply Hf. apply in_or_app. left. exact Hlx.
        + exact L1.
        + exact C1.
        + intros r' s' F1 F2 F3 F4 F5. apply K; [congruence|congruence| |exact F4|].
          * eapply same_trans; [exact Sm1|eapply same_cover; [|exact F3]|apply cover_incl; apply incl_refl].
            rewrite E1, E2. apply cover_cons; [|apply cover_incl; inc].
            eapply cover_weaken; [exact Cr|inc].
          * rewrite concat_app. cbn [concat]. rewrite app_nil_r, <- app_assoc. exact F5. }
    apply wp_bind. destruct la as [|x la]; inversion Ha; subst; [apply wp_look_end; [exact Logic.I|]; exact Hmain|].
    eapply wp_look_cons; [eassumption|]. exact Hmain.
Qed.
End Proofs.
