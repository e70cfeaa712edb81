(** The code that [CompModel] emits does what [CompLang] says: a simulation, by induction on the fuel of the evaluator.
    Used by [CompProperties]. *)
From Verif Require Import CompModel CompStatic.
Local Arguments app : simpl never.

(** *** Height of a form: how much of the fuel is used without a step of the machine *)
Fixpoint height (e : exp) : nat :=
  S match e with
    | Const _ | Var _ | Go _ => 0
    | Setq l => list_max (map (fun p => height (snd p)) l)
    | Progn l | And l | Or l | Block _ l | Call _ l => list_max (map height l)
    | If c a b => max (height c) (max (height a) (height b))
    | Cond l => list_max (map (fun p => max (height (fst p)) (list_max (map height (snd p)))) l)
    | While c l => max (height c) (list_max (map height l))
    | Let b l | LetStar b l => max (list_max (map (fun p => height (snd p)) b)) (list_max (map height l))
    | ReturnFrom _ a | Null a | Car a | Cdr a | Is _ a => height a
    | Tagbody l => S (list_max (map (fun i => match i with inl _ => 0 | inr a => height a end) l))
    | Eq a b => max (height a) (height b)
    end.
Lemma list_max_in : forall (A : Type) (f : A -> nat) l a, In a l -> f a <= list_max (map f l).
Proof.
  intros A f l a; induction l as [|b r IH]; cbn [map list_max fold_right]; intros H; [destruct H|].
  change (fold_right Nat.max 0 (map f r)) with (list_max (map f r)). destruct H as [->|H]; [lia|]. specialize (IH H). lia.
Qed.

Lemma one : forall (s : stmt) k, [s] ++ k = s :: k. Proof. reflexivity. Qed.
(** *** Layout *)
Definition bframe : Type := (nat * (nat * V))%type.       (* where; symbol; old value *)
Fixpoint ord (n : nat) (bs : list bframe) : Prop := match bs with [] => True | b :: r => fst b + 3 <= n /\ ord (fst b) r end.
Definition locals (G : ctx) : list ident := map snd G.
Definition off (c : cst) (k : nat) : Prop := exists x lb, assq x (blocks c) = Some (lb, k) \/ assq x (tags c) = Some (lb, k).
Record lay (c : cst) (G : ctx) (bs : list bframe) : Prop := mkLay {
  ly_local : forall n, In (InLocal n) (locals G) -> n < count c;
  ly_special : ~ In Special (locals G);
  ly_nodup : NoDup (locals G);
  ly_ord : ord (count c) bs;
  ly_disj : forall b n, In b bs -> In (InLocal n) (locals G) -> n < fst b \/ fst b + 3 <= n;
  ly_off : forall k, off c k -> k <= count c;
  ly_unwind : forall k b, off c k -> In b bs -> (k <= fst b /\ need_unwind c k = true) \/ fst b + 3 <= k
}.
Lemma ord_le : forall bs n m, ord n bs -> n <= m -> ord m bs.
Proof. intros [|b r] n m H L; [exact I|]. cbn [ord] in *. destruct H; split; [lia|auto]. Qed.
Lemma ord_in : forall bs n b, ord n bs -> In b bs -> fst b + 3 <= n.
Proof.
  induction bs as [|a r IH]; intros n b H HI; [destruct HI|]. cbn [ord] in H. destruct H as [H1 H2]. destruct HI as [->|HI]; [exact H1|].
  specialize (IH _ _ H2 HI). lia.
Qed.
Lemma lay_ext : forall c c' G bs, lay c G bs -> blocks c' = blocks c -> tags c' = tags c -> unwinds c' = unwinds c -> count c <= count c' -> lay c' G bs.
Proof.
  intros c c' G bs [A1 A2 A3 A4 A5 A6 A7] EB ET EU L.
  assert (EO : forall k, off c' k -> off c k) by (intros k; unfold off; rewrite EB, ET; auto).
  assert (EN : forall k, need_unwind c' k = need_unwind c k) by (intro k; unfold need_unwind; rewrite EU; reflexivity).
  split; auto.
  - intros n H. specialize (A1 n H). lia.
  - eapply ord_le; eauto.
  - intros k H. specialize (A6 k (EO k H)). lia.
  - intros k b H HI. rewrite EN. auto.
Qed.
Lemma count_depth : forall c, count c <= depth c. Proof. intro c; unfold depth; lia. Qed.
Lemma depth_count : forall c, depth c <= S (count c). Proof. intro c; unfold depth, pending; destruct (push c); lia. Qed.
Lemma lay_keep : forall lf c c' G bs, lay c G bs -> keep lf c c' -> depth c <= depth c' -> push c' = None \/ depth c < depth c' -> lay c' G bs.
Proof.
  intros lf c c' G bs HL K D P. apply (lay_ext c); [exact HL|apply (kp_blocks _ _ _ K)|apply (kp_tags _ _ _ K)|apply (kp_unwinds _ _ _ K)|].
  pose proof (count_depth c). destruct P as [P|P]; [unfold depth, pending in D; rewrite P in D; lia|]. pose proof (depth_count c'). lia.
Qed.

(** *** The machine *)
Section Dynamic.
Variable L : lisp.
Variable prog : list stmt.
Hypothesis labels : forall x, cnt x prog <= 1.
Let special := special L.
Let comp := comp special.
Local Notation mst := (mst L).
Local Notation state := (state L).
Local Notation config := (config L).
Local Notation steps := (steps L prog).
Local Notation goto := (goto L prog).

Definition reach (c c' : config) : Prop := exists k, steps k c = c'.
Definition reach1 (c c' : config) : Prop := exists k, steps (S k) c = c'.
Lemma steps_add : forall a b c, steps (a + b) c = steps b (steps a c).
Proof.
  induction a as [|a IH]; intros b c; [reflexivity|]. cbn [Nat.add CompModel.steps]. destruct c as [code m|v m| |]; [apply IH|..];
    destruct b; reflexivity.
Qed.
Lemma reach_refl : forall c, reach c c. Proof. intro c; exists 0; reflexivity. Qed.
Lemma reach_trans : forall a b c, reach a b -> reach b c -> reach a c.
Proof. intros a b c (k & <-) (j & <-). exists (k + j). apply steps_add. Qed.
Lemma reach_reach1 : forall a b c, reach a b -> reach1 b c -> reach1 a c.
Proof. intros a b c (k & <-) (j & <-). exists (k + j). rewrite <- Nat.add_succ_r. apply steps_add. Qed.
Lemma reach1_reach : forall a b, reach1 a b -> reach a b. Proof. intros a b (k & H). exists (S k). exact H. Qed.
Lemma reach_step : forall code m c, step L prog code m = c -> reach1 (Running L code m) c.
Proof. intros code m c H. exists 0. exact H. Qed.
Lemma reach_next : forall code m c c', step L prog code m = c -> reach c c' -> reach (Running L code m) c'.
Proof. intros code m c c' H R. eapply reach_trans; [apply reach1_reach, reach_step; exact H|exact R]. Qed.

Definition suffix (c p : list stmt) : Prop := exists a, p = a ++ c.
Lemma suffix_app : forall a b p, suffix (a ++ b) p -> suffix b p.
Proof. intros a b p (x & ->). exists (x ++ a). rewrite app_assoc. reflexivity. Qed.
Lemma suffix_cons : forall a b p, suffix (a :: b) p -> suffix b p.
Proof. intros a b p H. apply (suffix_app [a] b). exact H. Qed.
Lemma find_here : forall l a k, cnt l a = 0 -> find_label l (a ++ SLabel l :: k) = Some k.
Proof.
  intros l a k; induction a as [|s a IH]; intro H.
  - rewrite app_nil_l. cbn [find_label]. rewrite Nat.eqb_refl. reflexivity.
  - rewrite <- app_comm_cons. destruct s; cbn [find_label cnt] in *; try (apply IH; exact H).
    destruct (Nat.eqb l0 l); [discriminate|apply IH; exact H].
Qed.
Lemma goto_here : forall l k m, suffix (SLabel l :: k) prog -> goto l m = Running L k m.
Proof.
  intros l k m (a & E). unfold CompModel.goto. rewrite E, find_here; [reflexivity|]. specialize (labels l).
  rewrite E, cnt_app in labels. cbn [cnt] in labels. rewrite Nat.eqb_refl in labels. lia.
Qed.

(** What is on the stack, the pending expression included *)
Definition cellof (o : option V) : cell := match o with Some v => Cell v | None => Junk end.
Definition view (c : cst) (m : mst) (i : nat) : cell :=
  match push c with
  | Some e => if Nat.eqb i (count c) then cellof (value L e m) else loc L m i
  | None => loc L m i
  end.
Definition pend (c : cst) (m : mst) : Prop := match push c with Some e => value L e m <> None | None => True end.
Definition pres (G : ctx) (D : nat) (R R' : nat -> cell) : Prop := forall i, i < D -> ~ In (InLocal i) (locals G) -> R' i = R i.
Lemma pres_refl : forall G D R, pres G D R R. Proof. intros G D R i _ _; reflexivity. Qed.
Lemma pres_trans : forall G D D1 R R1 R2, pres G D R R1 -> pres G D1 R1 R2 -> D <= D1 -> pres G D R R2.
Proof. intros G D D1 R R1 R2 H1 H2 HL i Hi Hn. rewrite (H2 i) by (auto; lia). apply H1; auto. Qed.
Lemma pres_le : forall G D D' R R', pres G D R R' -> D' <= D -> pres G D' R R'.
Proof. intros G D D' R R' H HL i Hi. apply H. lia. Qed.
Lemma view_low : forall c m i, i < count c -> view c m i = loc L m i.
Proof. intros c m i H; unfold view; destruct (push c); [|reflexivity]. destruct (Nat.eqb_spec i (count c)); [lia|reflexivity]. Qed.
Lemma view_flat : forall c m i, push c = None -> view c m i = loc L m i.
Proof. intros c m i H; unfold view; rewrite H; reflexivity. Qed.
Lemma view_top : forall c e m v, value L e m = Some v -> view (pc c (Some e) (depth c)) m (depth c) = Cell v.
Proof. intros c e m v H; unfold view; cbn [push count pc]. rewrite Nat.eqb_refl, H. reflexivity. Qed.
Lemma view_pc : forall c e n m i, i < n -> view (pc c e n) m i = loc L m i.
Proof. intros; apply view_low; assumption. Qed.
Lemma pend_view : forall c m v, view c m (depth c - 1) = Cell v -> pend c m.
Proof.
  intros c m v H. unfold pend, view, depth, pending in *. destruct (push c); [|exact I]. rewrite Nat.add_sub, Nat.eqb_refl in H.
  destruct (value L c0 m); [discriminate|cbn in H; discriminate].
Qed.

(** *** Variables, binding frames *)
Definition slot (m : mst) (i : ident) : option V :=
  match i with InLocal n => match loc L m n with Cell v => Some v | _ => None end | InArg n => Some (arg L m n) | Special => None end.
Definition below (k : nat) (i : ident) : Prop := match i with InLocal n => n < k | _ => True end.
Definition menv (P : ident -> Prop) (G : ctx) (e : env) (m : mst) : Prop :=
  Forall2 (fun p q => fst p = fst q /\ (P (snd p) -> slot m (snd p) = Some (snd q))) G e.
Fixpoint chain (f : nat -> cell) (p : option nat) (bs : list bframe) : Prop :=
  match bs with
  | [] => p = None
  | (a, (x, v)) :: r => p = Some a /\ exists q, f a = Link q /\ f (a + 1) = Sym x /\ f (a + 2) = Cell v /\ chain f q r
  end.
Definition inv (G : ctx) (bs : list bframe) (m : mst) (e : env) (s : state) : Prop :=
  menv (fun _ => True) G e m /\ chain (loc L m) (bfp L m) bs /\ mgl L m = gl L s /\ mwd L m = wd L s.
Definition saved (bs : list bframe) : list (nat * V) := map snd bs.
Definition lower (k : nat) (bs : list bframe) : list bframe := filter (fun b => Nat.ltb (fst b) k) bs.
Definition upper (k : nat) (bs : list bframe) : list bframe := filter (fun b => negb (Nat.ltb (fst b) k)) bs.
(** after an escape to a place where the stack is [k] deep *)
Definition rel (k : nat) (G : ctx) (bs : list bframe) (R : nat -> cell) (m : mst) (e : env) (s : state) : Prop :=
  menv (below k) G e m /\ chain (loc L m) (bfp L m) (lower k bs) /\ mgl L m = restore (saved (upper k bs)) (gl L s) /\ mwd L m = wd L s /\
  pres G k R (loc L m).

Lemma lower_all : forall n bs, ord n bs -> lower n bs = bs /\ upper n bs = [].
Proof.
  intros n bs H. assert (K : forall b, In b bs -> Nat.ltb (fst b) n = true).
  { intros b HI. apply Nat.ltb_lt. pose proof (ord_in _ _ _ H HI). lia. }
  clear H. induction bs as [|b r IH]; [split; reflexivity|]. cbn [lower upper filter]. fold (lower n r) (upper n r).
  rewrite (K b (or_introl eq_refl)). cbn [negb]. destruct IH as (-> & ->); [intros; apply K; right; assumption|]. split; reflexivity.
Qed.
Lemma chain_ext : forall f f' bs p, chain f p bs -> (forall b i, In b bs -> fst b <= i < fst b + 3 -> f' i = f i) -> chain f' p bs.
Proof.
  intros f f'; induction bs as [|[a [x v]] r IH]; intros p H E; [exact H|]. cbn [chain] in *. destruct H as (-> & q & H1 & H2 & H3 & H4).
  split; [reflexivity|]. exists q. rewrite !(E (a, (x, v))) by (try (left; reflexivity); cbn [fst]; lia).
  split; [exact H1|]. split; [exact H2|]. split; [exact H3|]. apply IH; [exact H4|]. intros b i HI. apply E. right; exact HI.
Qed.
Lemma menv_ext : forall (P P' : ident -> Prop) G e m m', menv P G e m -> (forall i, In i (locals G) -> P' i -> P i /\ slot m' i = slot m i) -> menv P' G e m'.
Proof.
  intros P P' G e m m' H. induction H as [|[x i] [y v] G e [H1 H2] HF IH]; intro E; constructor.
  - split; [exact H1|]. cbn [snd] in *. intro HP. destruct (E i (or_introl eq_refl) HP) as (K1 & K2). rewrite K2. apply H2, K1.
  - apply IH. intros j HI. apply E. right; exact HI.
Qed.
Lemma rel_inv : forall c G bs R m e s k, lay c G bs -> count c <= k -> rel k G bs R m e s -> inv G bs m e s /\ pres G k R (loc L m).
Proof.
  intros c G bs R m e s k HL HK (H1 & H2 & H3 & H4 & H5). split; [|exact H5].
  destruct (lower_all k bs (ord_le _ _ _ (ly_ord _ _ _ HL) HK)) as (E1 & E2). rewrite E1 in H2. rewrite E2 in H3.
  split; [|split; [exact H2|split; [exact H3|exact H4]]].
  eapply menv_ext; [exact H1|]. intros [|n|n] HI _; cbn; (split; [|reflexivity]); auto. pose proof (ly_local _ _ _ HL n HI). lia.
Qed.

(** *** Outcomes *)
Definition outcome {A : Type} (bl tg : list (nat * (nat * nat))) (G : ctx) (bs : list bframe) (R : nat -> cell) (c0 : config) (N : nat)
    (o : option (out L A)) (Q : A -> env -> state -> config -> Prop) : Prop :=
  match o with
  | None => exists k code m, N <= k /\ steps k c0 = Running L code m
  | Some Err => reach c0 (Failed L)
  | Some (Normal a e s) => exists c, reach c0 c /\ Q a e s c
  | Some (Exit b v e s) => exists lb k m, reach c0 (goto lb m) /\ assq b bl = Some (lb, k) /\ loc L m k = Cell v /\ rel k G bs R m e s
  | Some (Jump t e s) => exists lb k m, reach1 c0 (goto lb m) /\ assq t tg = Some (lb, k) /\ rel k G bs R m e s
  end.
Definition offs (bl tg : list (nat * (nat * nat))) (D : nat) : Prop :=
  forall x lb k, assq x bl = Some (lb, k) \/ assq x tg = Some (lb, k) -> k <= D.
Lemma lay_offs : forall c G bs D, lay c G bs -> count c <= D -> offs (blocks c) (tags c) D.
Proof. intros c G bs D HL HD x lb k H. pose proof (ly_off _ _ _ HL k (ex_intro _ x (ex_intro _ lb H))). lia. Qed.

Lemma out_reach : forall A bl tg G bs R c0 c N (o : option (out L A)) Q, reach c0 c -> outcome bl tg G bs R c N o Q -> outcome bl tg G bs R c0 N o Q.
Proof.
  intros A bl tg G bs R c0 c N [[a e s|b v e s|t e s|]|] Q HR H; cbn [outcome] in *.
  - destruct H as (c' & H1 & H2). exists c'. split; [eapply reach_trans; eauto|exact H2].
  - destruct H as (lb & k & m & H1 & H2). exists lb, k, m. split; [eapply reach_trans; eauto|exact H2].
  - destruct H as (lb & k & m & H1 & H2). exists lb, k, m. split; [eapply reach_reach1; eauto|exact H2].
  - eapply reach_trans; eauto.
  - destruct HR as (j & <-). destruct H as (k & code & m & H1 & H2). exists (j + k), code, m. split; [lia|]. rewrite steps_add. exact H2.
Qed.
Lemma out_reach1 : forall A bl tg G bs R c0 c N (o : option (out L A)) Q, reach1 c0 c -> outcome bl tg G bs R c N o Q -> outcome bl tg G bs R c0 (S N) o Q.
Proof.
  intros A bl tg G bs R c0 c N o Q HR H. destruct o as [o|].
  - apply reach1_reach in HR. apply (out_reach _ _ _ _ _ _ _ _ (S N) (Some o) Q HR). destruct o; exact H.
  - cbn [outcome] in *. destruct HR as (j & <-). destruct H as (k & code & m & H1 & H2). exists (S j + k), code, m. split; [lia|]. rewrite steps_add. exact H2.
Qed.
Lemma out_weak : forall A bl tg G bs R c0 N N' (o : option (out L A)) (Q Q' : A -> env -> state -> config -> Prop), outcome bl tg G bs R c0 N o Q -> N' <= N ->
  (forall a e s c, Q a e s c -> Q' a e s c) -> outcome bl tg G bs R c0 N' o Q'.
Proof.
  intros A bl tg G bs R c0 N N' [[a e s|b v e s|t e s|]|] Q Q' H HN HQ; cbn [outcome] in *; auto.
  - destruct H as (c' & H1 & H2). exists c'. auto.
  - destruct H as (k & code & m & H1 & H2). exists k, code, m. split; [lia|exact H2].
Qed.
Lemma rel_ref : forall k G bs R R1 D m e s, rel k G bs R1 m e s -> pres G D R R1 -> k <= D -> rel k G bs R m e s.
Proof. intros k G bs R R1 D m e s (H1 & H2 & H3 & H4 & H5) HP HK. repeat (split; [assumption|]). eapply pres_trans; [eapply pres_le; eauto|exact H5|lia]. Qed.
Lemma out_ref : forall A bl tg G bs R R1 D c0 N (o : option (out L A)) Q, outcome bl tg G bs R1 c0 N o Q -> pres G D R R1 -> offs bl tg D ->
  outcome bl tg G bs R c0 N o Q.
Proof.
  intros A bl tg G bs R R1 D c0 N [[a e s|b v e s|t e s|]|] Q H HP HO; cbn [outcome] in *; auto.
  - destruct H as (lb & k & m & H1 & H2 & H3 & H4). exists lb, k, m. repeat (split; [assumption|]). eapply rel_ref; eauto.
  - destruct H as (lb & k & m & H1 & H2 & H3). exists lb, k, m. repeat (split; [assumption|]). eapply rel_ref; eauto.
Qed.
Lemma out_bind : forall A B bl tg G bs R c0 N N1 (o : option (out L A)) Q1 (k : A -> env -> state -> option (out L B)) Q,
  outcome bl tg G bs R c0 N1 o Q1 -> N <= N1 -> (forall a e s c, Q1 a e s c -> outcome bl tg G bs R c N (k a e s) Q) ->
  outcome bl tg G bs R c0 N (obind L o k) Q.
Proof.
  intros A B bl tg G bs R c0 N N1 [[a e s|b v e s|t e s|]|] Q1 k Q H HN HK; cbn [outcome obind] in *; auto.
  - destruct H as (c & H1 & H2). eapply out_reach; eauto.
  - destruct H as (j & code & m & H1 & H2). exists j, code, m. split; [lia|exact H2].
Qed.
(** a form inside another, for which the stack was another one *)
Lemma out_sub : forall A B bl tg G bs R R1 D c0 N N1 (o : option (out L A)) Q1 (k : A -> env -> state -> option (out L B)) Q,
  outcome bl tg G bs R1 c0 N1 o Q1 -> pres G D R R1 -> offs bl tg D -> N <= N1 ->
  (forall a e s c, Q1 a e s c -> outcome bl tg G bs R c N (k a e s) Q) -> outcome bl tg G bs R c0 N (obind L o k) Q.
Proof. intros. eapply out_bind; [eapply out_ref; eauto|assumption|assumption]. Qed.
Lemma out_normal : forall A bl tg G bs R c0 c N (a : A) e s (Q : A -> env -> state -> config -> Prop), reach c0 c -> Q a e s c -> outcome bl tg G bs R c0 N (Some (Normal a e s)) Q.
Proof. intros. exists c. auto. Qed.

(** *** Instructions *)
Definition flushed (c : cst) (m : mst) : mst :=
  match push c with Some e => match value L e m with Some v => set_loc L m (count c) (Cell v) | None => m end | None => m end.
Lemma flush_run : forall c m k, pend c m -> reach (Running L (flush c ++ k) m) (Running L k (flushed c m)).
Proof.
  intros c m k H. unfold flush, flushed, pend in *. destruct (push c) as [e|]; [|apply reach_refl].
  destruct (value L e m) as [v|] eqn:E; [|congruence]. rewrite one. eapply reach_next; [|apply reach_refl]. cbn. unfold on. rewrite E. reflexivity.
Qed.
Lemma flushed_loc : forall c m i, pend c m -> loc L (flushed c m) i = view c m i.
Proof.
  intros c m i H. unfold flushed, view, pend in *. destruct (push c) as [e|]; [|reflexivity].
  destruct (value L e m) as [v|] eqn:E; [|congruence]. reflexivity.
Qed.
Lemma flushed_rest : forall c m, arg L (flushed c m) = arg L m /\ argn L (flushed c m) = argn L m /\ w L (flushed c m) = w L m /\ bfp L (flushed c m) = bfp L m /\
  mgl L (flushed c m) = mgl L m /\ mwd L (flushed c m) = mwd L m.
Proof. intros c m. unfold flushed. destruct (push c) as [e|]; [destruct (value L e m)|]; repeat split. Qed.

(** the invariant looks only at the variables and the frames *)
Lemma inv_ext : forall c G bs m m' e s, lay c G bs -> inv G bs m e s -> (forall i, i < count c -> loc L m' i = loc L m i) ->
  (forall i, arg L m' i = arg L m i) -> bfp L m' = bfp L m -> mgl L m' = mgl L m -> mwd L m' = mwd L m -> inv G bs m' e s.
Proof.
  intros c G bs m m' e s HL (H1 & H2 & H3 & H4) EL EA EB EG EW. split; [|split; [|split; congruence]].
  - eapply menv_ext; [exact H1|]. intros [|n|n] HI _; (split; [exact I|]); cbn [slot]; [reflexivity|..].
    + rewrite EL by (apply (ly_local _ _ _ HL); exact HI). reflexivity.
    + rewrite EA. reflexivity.
  - rewrite EB. eapply chain_ext; [exact H2|]. intros b i HI Hi. apply EL. pose proof (ord_in _ _ _ (ly_ord _ _ _ HL) HI). lia.
Qed.
(** the same when globals and world move too *)
Lemma inv_move : forall c G bs m m' e s s', lay c G bs -> inv G bs m e s -> (forall i, i < count c -> loc L m' i = loc L m i) ->
  (forall i, arg L m' i = arg L m i) -> bfp L m' = bfp L m -> mgl L m' = gl L s' -> mwd L m' = wd L s' -> inv G bs m' e s'.
Proof.
  intros c G bs m m' e s s' HL (H1 & H2 & H3 & H4) EL EA EB EG EW. split; [|split; [|split; congruence]].
  - eapply menv_ext; [exact H1|]. intros [|n|n] HI _; (split; [exact I|]); cbn [slot]; [reflexivity|..].
    + rewrite EL by (apply (ly_local _ _ _ HL); exact HI). reflexivity.
    + rewrite EA. reflexivity.
  - rewrite EB. eapply chain_ext; [exact H2|]. intros b i HI Hi. apply EL. pose proof (ord_in _ _ _ (ly_ord _ _ _ HL) HI). lia.
Qed.
Lemma inv_flush : forall c G bs m e s, lay c G bs -> inv G bs m e s -> pend c m -> inv G bs (flushed c m) e s.
Proof.
  intros c G bs m e s HL HI HP. destruct (flushed_rest c m) as (E1 & _ & _ & E4 & E5 & E6).
  eapply inv_ext; [exact HL|exact HI| |intro i; rewrite E1; reflexivity|assumption..].
  intros i Hi. rewrite flushed_loc by exact HP. apply view_low. exact Hi.
Qed.
Definition top (c' : cst) (G : ctx) (bs : list bframe) (D : nat) (R : nat -> cell) (post : list stmt) (v : V) (e : env) (s : state) (c : config) : Prop :=
  exists m, c = Running L post m /\ inv G bs m e s /\ view c' m D = Cell v /\ pres G D R (view c' m).

(** put an expression on the top *)
Lemma push_run : forall c G bs m e s E v post, lay c G bs -> inv G bs m e s -> pend c m ->
  value L E (flushed c m) = Some v ->
  exists m1, reach (Running L (flush c ++ post) m) (Running L post m1) /\ inv G bs m1 e s /\ view (pc c (Some E) (depth c)) m1 (depth c) = Cell v /\
    pres G (depth c) (view c m) (view (pc c (Some E) (depth c)) m1).
Proof.
  intros c G bs m e s E v post HL HI HP HV. exists (flushed c m). split; [apply flush_run; exact HP|]. split; [apply inv_flush; assumption|].
  split; [apply view_top; exact HV|]. intros i Hi _. rewrite view_pc by exact Hi. apply flushed_loc. exact HP.
Qed.

(** take the top away into w, a local or an argument *)
Definition wrote (d : cexpr) (v : V) (m m' : mst) : Prop :=
  (forall i, loc L m' i = match d with CLocal n => if Nat.eqb i n then Cell v else loc L m i | _ => loc L m i end) /\
  (forall i, arg L m' i = match d with CArg n => if Nat.eqb i n then v else arg L m i | _ => arg L m i end) /\
  w L m' = match d with CW => v | _ => w L m end /\
  bfp L m' = bfp L m /\ mgl L m' = mgl L m /\ mwd L m' = mwd L m.
Lemma top_value : forall c m v, 0 < depth c -> view c m (depth c - 1) = Cell v -> value L (topexpr c) m = Some v.
Proof.
  intros c m v HD H. unfold view, topexpr, depth, pending in *. destruct (push c) as [e|].
  - rewrite Nat.add_sub, Nat.eqb_refl in H. destruct (value L e m) as [u|]; cbn in H; [congruence|discriminate].
  - rewrite Nat.add_0_r in H. cbn [value]. rewrite H. reflexivity.
Qed.
Lemma store_run : forall c d m v, match d with CW | CLocal _ | CArg _ => True | _ => False end -> 0 < depth c -> view c m (depth c - 1) = Cell v ->
  exists m', (forall k, reach (Running L (store_code d c ++ k) m) (Running L k m')) /\ wrote d v m m'.
Proof.
  intros c d m v Hd HD HV. pose proof (top_value _ _ _ HD HV) as HT. unfold store_code.
  destruct (push c) as [e|] eqn:P.
  - unfold topexpr in *. rewrite P in *. destruct (same e d) eqn:SX.
    + exists m. split; [intro k; rewrite app_nil_l; apply reach_refl|].
      destruct e, d; try discriminate; try contradiction; cbn [value same] in *.
      * injection HT as <-. repeat split.
      * apply Nat.eqb_eq in SX as ->. destruct (loc L m n0) eqn:E; try discriminate. injection HT as ->. repeat split.
        intro i. destruct (Nat.eqb_spec i n0); congruence.
      * apply Nat.eqb_eq in SX as ->. injection HT as <-. repeat split. intro i. destruct (Nat.eqb_spec i n0); congruence.
    + destruct d; try contradiction; cbn [assignment]; (eexists; split; [intro k; rewrite one; eapply reach_next; [|apply reach_refl]; cbn; unfold on; rewrite HT; reflexivity|]); repeat split.
  - destruct d; try contradiction; cbn [assignment]; (eexists; split; [intro k; rewrite one; eapply reach_next; [|apply reach_refl]; cbn; unfold on; rewrite HT; reflexivity|]); repeat split.
Qed.

(** *** What is to be shown of a form *)
Local Notation plain := (plain special).
Local Notation pre := (pre special).
Local Notation eval := (eval L).
Definition sound (n : nat) (x : exp) : Prop := forall c c' u o G bs post m e s, plain x = true -> pre c G (fv x) (letfree x) ->
  comp x c = Some (u, c', o) -> suffix (o ++ post) prog -> lay c G bs -> inv G bs m e s -> pend c m ->
  outcome (blocks c) (tags c) G bs (view c m) (Running L (o ++ post) m) (n - height x) (eval n x e s) (top c' G bs (depth c) (view c m) post).
Definition branch (tl nl : option nat) (v : V) (post : list stmt) (m : mst) : config :=
  match nl, tl with
  | Some l, _ => if V_eqb v NIL then goto l m else Running L post m
  | None, Some l => if V_eqb v NIL then Running L post m else goto l m
  | None, None => Stuck L
  end.
Definition decided (tl nl : option nat) (G : ctx) (bs : list bframe) (D : nat) (R : nat -> cell) (post : list stmt) (v : V) (e : env) (s : state) (c : config) : Prop :=
  exists m, c = branch tl nl v post m /\ inv G bs m e s /\ pres G D R (loc L m).
Definition csound (n : nat) (x : exp) : Prop := forall tl nl c c' u o G bs post m e s, tl = None \/ nl = None -> plain x = true -> pre c G (fv x) (letfree x) ->
  evcon comp x tl nl c = Some (u, c', o) -> suffix (o ++ post) prog -> lay c G bs -> inv G bs m e s -> pend c m ->
  outcome (blocks c) (tags c) G bs (view c m) (Running L (o ++ post) m) (n - height x) (eval n x e s) (decided tl nl G bs (depth c) (view c m) post).

Lemma obind_ret : forall A (o : option (out L A)), obind L o (fun a e s => Some (Normal a e s)) = o.
Proof. intros A [[a e s|b v e s|t e s|]|]; reflexivity. Qed.

Lemma lay_later : forall lf c c1 G bs, lay c G bs -> keep lf c c1 -> count c <= count c1 -> lay c1 G bs.
Proof. intros lf c c1 G bs HL K HC. apply (lay_ext c); [exact HL|apply (kp_blocks _ _ _ K)|apply (kp_tags _ _ _ K)|apply (kp_unwinds _ _ _ K)|exact HC]. Qed.

(** a form inside a form that began at [c0] *)
Lemma use : forall B n x, sound n x -> forall LF c0 c1 c2 u o G bs X k m1 e s R D N (kk : V -> env -> state -> option (out L B)) Q,
  keep LF c0 c1 -> pre c0 G X LF -> incl (fv x) X -> (LF = true -> letfree x = true) -> plain x = true ->
  comp x c1 = Some (u, c2, o) -> suffix (o ++ k) prog -> lay c0 G bs -> count c0 <= count c1 -> inv G bs m1 e s -> pend c1 m1 ->
  pres G D R (view c1 m1) -> count c0 <= D -> N <= n - height x ->
  (forall v e' s' m2, inv G bs m2 e' s' -> view c2 m2 (depth c1) = Cell v -> pres G (depth c1) (view c1 m1) (view c2 m2) ->
     outcome (blocks c0) (tags c0) G bs R (Running L k m2) N (kk v e' s') Q) ->
  outcome (blocks c0) (tags c0) G bs R (Running L (o ++ k) m1) N (obind L (eval n x e s) kk) Q.
Proof.
  intros B n x HS LF c0 c1 c2 u o G bs X k m1 e s R D N kk Q K HA HX HLF HP HC HSU HL HCO HI HPE HR HD HN HK.
  pose proof (HS c1 c2 u o G bs k m1 e s HP (pre_keep _ _ _ _ _ _ _ _ HA K HX HLF) HC HSU (lay_later _ _ _ _ _ HL K HCO) HI HPE) as H.
  rewrite (kp_blocks _ _ _ K), (kp_tags _ _ _ K) in H.
  eapply out_sub; [exact H|exact HR|eapply lay_offs; eauto|exact HN|]. intros v e' s' c (m2 & -> & H1 & H2 & H3). eauto.
Qed.
Lemma use_last : forall n x, sound n x -> forall LF c0 c1 c2 u o G bs X k m1 e s R D N Q,
  keep LF c0 c1 -> pre c0 G X LF -> incl (fv x) X -> (LF = true -> letfree x = true) -> plain x = true ->
  comp x c1 = Some (u, c2, o) -> suffix (o ++ k) prog -> lay c0 G bs -> count c0 <= count c1 -> inv G bs m1 e s -> pend c1 m1 ->
  pres G D R (view c1 m1) -> count c0 <= D -> N <= n - height x ->
  (forall v e' s' m2, inv G bs m2 e' s' -> view c2 m2 (depth c1) = Cell v -> pres G (depth c1) (view c1 m1) (view c2 m2) ->
     outcome (blocks c0) (tags c0) G bs R (Running L k m2) N (Some (Normal v e' s')) Q) ->
  outcome (blocks c0) (tags c0) G bs R (Running L (o ++ k) m1) N (eval n x e s) Q.
Proof. intros. rewrite <- (obind_ret _ (eval n x e s)). eapply use; eauto. Qed.
Lemma useC : forall B n x, csound n x -> forall tl nl LF c0 c1 c2 u o G bs X k m1 e s R D N (kk : V -> env -> state -> option (out L B)) Q,
  tl = None \/ nl = None -> keep LF c0 c1 -> pre c0 G X LF -> incl (fv x) X -> (LF = true -> letfree x = true) -> plain x = true ->
  evcon comp x tl nl c1 = Some (u, c2, o) -> suffix (o ++ k) prog -> lay c0 G bs -> count c0 <= count c1 -> inv G bs m1 e s -> pend c1 m1 ->
  pres G D R (view c1 m1) -> count c0 <= D -> N <= n - height x ->
  (forall v e' s' m2, inv G bs m2 e' s' -> pres G (depth c1) (view c1 m1) (loc L m2) ->
     outcome (blocks c0) (tags c0) G bs R (branch tl nl v k m2) N (kk v e' s') Q) ->
  outcome (blocks c0) (tags c0) G bs R (Running L (o ++ k) m1) N (obind L (eval n x e s) kk) Q.
Proof.
  intros B n x HS tl nl LF c0 c1 c2 u o G bs X k m1 e s R D N kk Q HT K HA HX HLF HP HC HSU HL HCO HI HPE HR HD HN HK.
  pose proof (HS tl nl c1 c2 u o G bs k m1 e s HT HP (pre_keep _ _ _ _ _ _ _ _ HA K HX HLF) HC HSU (lay_later _ _ _ _ _ HL K HCO) HI HPE) as H.
  rewrite (kp_blocks _ _ _ K), (kp_tags _ _ _ K) in H.
  eapply out_sub; [exact H|exact HR|eapply lay_offs; eauto|exact HN|]. intros v e' s' c (m2 & -> & H1 & H2). eauto.
Qed.

Lemma into : forall LF c0 c1 c' G bs R R1 D post c N N1 o, outcome (blocks c1) (tags c1) G bs R1 c N1 o (top c' G bs D R1 post) -> keep LF c0 c1 -> lay c0 G bs ->
  pres G D R R1 -> count c0 <= D -> N <= N1 -> outcome (blocks c0) (tags c0) G bs R c N o (top c' G bs D R post).
Proof.
  intros LF c0 c1 c' G bs R R1 D post c N N1 o H K HL HP HD HN. rewrite (kp_blocks _ _ _ K), (kp_tags _ _ _ K) in H.
  eapply out_weak; [eapply out_ref; [exact H|exact HP|eapply lay_offs; eauto]|exact HN|].
  intros v e s cc (m & -> & H1 & H2 & H3). exists m. split; [reflexivity|]. split; [exact H1|]. split; [exact H2|]. eapply pres_trans; eauto.
Qed.
(** the end of a form: everything is in place *)
Lemma done : forall bl tg G bs R c' D post m v e s N, inv G bs m e s -> view c' m D = Cell v -> pres G D R (view c' m) ->
  outcome bl tg G bs R (Running L post m) N (Some (Normal v e s)) (top c' G bs D R post).
Proof. intros. eapply out_normal; [apply reach_refl|]. exists m. auto. Qed.

Ltac inc := let x := fresh "x" in let H := fresh "H" in intros x H; cbn [fv flat_map fst snd] in *; rewrite ?in_app_iff in *; cbn [In] in *; tauto.
Ltac bt := cbn [letfree forallb CompLang.plain fst snd] in *; rewrite ?andb_true_iff in *; tauto.
Ltac lfi := let H := fresh "H" in intro H; bt.
Definition ctof (x : exp) : ct special x := proj1 (comp_static special x).
Definition ctcof (x : exp) : ctcon special x := proj2 (comp_static special x).
(** static facts about a part, from [K : keep LF c0 c1] to [K : keep LF c0 c2] *)
Ltac adv x HA K B D :=
  let X := fresh "X" in let lf' := fresh "lf" in let K2 := fresh "K" in let W := fresh "W" in let F := fresh "F" in
  match type of K with keep ?LF ?c0 ?c1 =>
  match type of B with _ = Some (_, ?c2, ?o) =>
  assert (X : exists lf', does lf' c1 c2 o /\ (LF = true -> lf' = true)) by
    (eexists; split; [eapply (ctof x); [bt|eapply pre_keep; [exact HA|exact K|inc|lfi]|exact B]|lfi]);
  destruct X as (lf' & (K2 & F & D) & W);
  let K3 := fresh "K" in
  assert (K3 : keep LF c0 c2) by (eapply keep_trans; [exact K|eapply keep_weaken; [exact K2|exact W]]);
  clear K K2 W F; rename K3 into K
  end end.
Ltac advC x HA K B P D :=
  let X := fresh "X" in let lf' := fresh "lf" in let K2 := fresh "K" in let W := fresh "W" in let F := fresh "F" in
  match type of K with keep ?LF ?c0 ?c1 =>
  match type of B with _ = Some (_, ?c2, ?o) =>
  assert (X : exists lf', does0 lf' c1 c2 o /\ (LF = true -> lf' = true)) by
    (eexists; split; [eapply (ctcof x); [bt|eapply pre_keep; [exact HA|exact K|inc|lfi]|exact B]|lfi]);
  destruct X as (lf' & (K2 & F & P & D) & W);
  let K3 := fresh "K" in
  assert (K3 : keep LF c0 c2) by (eapply keep_trans; [exact K|eapply keep_weaken; [exact K2|exact W]]);
  clear K K2 W F; rename K3 into K
  end end.
Ltac mov K c2 :=
  match type of K with keep ?LF ?c0 ?c1 =>
  let K3 := fresh "K" in
  assert (K3 : keep LF c0 c2) by (eapply keep_trans; [exact K|first [apply keep_pc|apply keep_lab; cbn; lia|apply keep_refl]]);
  clear K; rename K3 into K end.
Ltac cd := repeat match goal with |- context [count ?c] => lazymatch goal with H : count c <= depth c |- _ => fail | _ => pose proof (count_depth c); pose proof (depth_count c) end end.
Ltac right_assoc := rewrite <- ?app_assoc, ?app_nil_l, ?app_nil_r in *.

Lemma sound0 : forall x, sound 0 x.
Proof. intros x c c' u o G bs post m e s HP HA HC HS HL HI HPE. cbn [CompLang.eval outcome]. exists 0. eexists; eexists. split; [lia|reflexivity]. Qed.
Lemma csound0 : forall x, csound 0 x.
Proof. intros x tl nl c c' u o G bs post m e s HT HP HA HC HS HL HI HPE. cbn [CompLang.eval outcome]. exists 0. eexists; eexists. split; [lia|reflexivity]. Qed.

Ltac advP l HA K B D :=
  let X := fresh "X" in let lf' := fresh "lf" in let K2 := fresh "K" in let W := fresh "W" in let F := fresh "F" in
  match type of K with keep ?LF ?c0 ?c1 =>
  match type of B with _ = Some (_, ?c2, ?o) =>
  assert (X : exists lf', does lf' c1 c2 o /\ (LF = true -> lf' = true)) by
    (eexists; split; [eapply (progn_ct special l (proj2 (Forall_forall _ _) (fun x _ => ctof x))); [bt|eapply pre_keep; [exact HA|exact K|inc|lfi]|exact B]|lfi]);
  destruct X as (lf' & (K2 & F & D) & W);
  let K3 := fresh "K" in
  assert (K3 : keep LF c0 c2) by (eapply keep_trans; [exact K|eapply keep_weaken; [exact K2|exact W]]);
  clear K K2 W F; rename K3 into K
  end end.
Section Step.
Variable n : nat.
Hypothesis IH : forall x, sound n x.
Hypothesis IHc : forall x, csound n x.

Lemma const_sound : forall v, sound (S n) (Const v).
Proof.
  intros v c c' u o G bs post m e s HP HA HC HS HL HI HPE. change (comp (Const v)) with (load_const v) in HC. known.
  destruct (push_run c G bs m e s (CConst v) v post HL HI HPE eq_refl) as (m1 & HR & H1 & H2 & H3).
  eapply out_reach; [exact HR|]. apply done; assumption.
Qed.
(** variables *)
Lemma menv_find : forall G e m x i, menv (fun _ => True) G e m -> assq x G = Some i -> exists v, assoc x e = Some v /\ slot m i = Some v.
Proof.
  intros G e m x i H. induction H as [|[y j] [z v] G e [H1 H2] HF IHF]; cbn [assq assoc]; intro E; [discriminate|]. cbn [fst snd] in *. subst z.
  destruct (Nat.eqb y x); [|apply IHF; exact E]. injection E as <-. exists v. split; [reflexivity|]. apply H2. exact I.
Qed.
Lemma slot_value : forall m i v, i <> Special -> slot m i = Some v -> value L (dest i) m = Some v.
Proof. intros m [|k|k] v N H; [congruence|exact H|exact H]. Qed.
Lemma load_run : forall x c a c' o G bs m e s post, good special (ids c) G (scope c) x -> load_var special x c = Some (a, c', o) -> lay c G bs -> inv G bs m e s -> pend c m ->
  exists m1, reach (Running L (o ++ post) m) (Running L post m1) /\ inv G bs m1 e s /\ view c' m1 (depth c) = Cell (read L x e s) /\
    pres G (depth c) (view c m) (view c' m1).
Proof.
  intros x c a c' o G bs m e s post HG H HL HI HPE. apply load_var_inv with (G := G) in H as (E & -> & -> & HE); [|exact HG].
  apply push_run; [exact HL|exact HI|exact HPE|]. pose proof (inv_flush _ _ _ _ _ _ HL HI HPE) as (H1 & H2 & H3 & H4). unfold read.
  unfold special in *. destruct (CompLang.special L x); [subst E; cbn [value]; rewrite H3; reflexivity|].
  destruct HE as (i & E1 & E2 & ->). destruct (menv_find _ _ _ _ _ H1 E1) as (v & E3 & E4). rewrite E3. apply slot_value; assumption.
Qed.
Lemma var_sound : forall x, sound (S n) (Var x).
Proof.
  intros x c c' u o G bs post m e s HP HA HC HS HL HI HPE. change (comp (Var x)) with (load_var special x) in HC.
  destruct (load_run x c u c' o G bs m e s post) as (m1 & HR & H1 & H2 & H3); try assumption.
  { eapply good_keep; [exact HA|apply keep_refl|left; reflexivity]. }
  eapply out_reach; [exact HR|]. apply done; assumption.
Qed.

(** progn *)
Lemma progn_run : forall l c c' u o G bs post m e s N, forallb plain l = true -> pre c G (flat_map fv l) (forallb letfree l) ->
  progn comp l c = Some (u, c', o) -> suffix (o ++ post) prog -> lay c G bs -> inv G bs m e s -> pend c m ->
  (forall a, In a l -> N <= n - height a) ->
  outcome (blocks c) (tags c) G bs (view c m) (Running L (o ++ post) m) N (ev_progn L (eval n) l e s) (top c' G bs (depth c) (view c m) post).
Proof.
  induction l as [|a r IHl]; intros c c' u o G bs post m e s N HP HA H HS HL HI HPE HN.
  - cbn [progn ev_progn] in *. known. destruct (push_run c G bs m e s (CConst NIL) NIL post HL HI HPE eq_refl) as (m1 & HR & H1 & H2 & H3).
    eapply out_reach; [exact HR|]. apply done; assumption.
  - pose proof (keep_refl (forallb letfree (a :: r)) c) as K. destruct r as [|b r].
    + cbn [progn ev_progn] in *. eapply (use_last n a (IH a)); [exact K|exact HA|inc|lfi|bt|exact H|exact HS|exact HL|lia|exact HI|exact HPE|apply pres_refl|apply count_depth|apply HN; left; reflexivity|].
      intros v e' s' m2 H1 H2 H3. apply done; assumption.
    + rewrite progn_cons in H by discriminate. change (ev_progn L (eval n) (a :: b :: r) e s) with (obind L (eval n a e s) (fun _ e s => ev_progn L (eval n) (b :: r) e s)).
      set (br := b :: r) in *. step H v1 c1 o1 B1. step H v2 c2 o2 B2. known. right_assoc.
      eapply (use _ n a (IH a)); [exact K|exact HA|inc|lfi|bt|exact B1|exact HS|exact HL|lia|exact HI|exact HPE|apply pres_refl|apply count_depth|apply HN; left; reflexivity|].
      intros v e' s' m2 H1 H2 H3. adv a HA K B1 D1. mov K (popped c1). apply suffix_app in HS.
      assert (HR : pres G (depth c) (view c m) (view (popped c1) m2)).
      { intros i Hi Hn. rewrite <- H3 by assumption. rewrite view_flat by reflexivity. symmetry. apply view_low. pose proof (depth_count c1). lia. }
      assert (DP : depth (popped c1) = depth c) by (rewrite depth_popped; lia).
      rewrite <- DP. eapply (into _ c (popped c1)); [|exact K|exact HL|rewrite DP; exact HR|rewrite DP; apply count_depth|apply Nat.le_refl].
      eapply IHl; [bt|eapply pre_keep; [exact HA|exact K|inc|lfi]|exact H|exact HS|eapply lay_later; [exact HL|exact K|]|exact H1|exact I|intros; apply HN; right; assumption].
      cbn [count popped pc]. pose proof (count_depth c). lia.
Qed.
Lemma progn_sound : forall l, sound (S n) (Progn l).
Proof.
  intros l c c' u o G bs post m e s HP HA HC HS HL HI HPE. change (comp (Progn l)) with (progn comp l) in HC.
  eapply progn_run; eauto. intros a HIn. cbn [height]. pose proof (list_max_in _ height l a HIn). lia.
Qed.

(** *** setq *)
Lemma pres_loc : forall G D R c m, pres G D R (view c m) -> D <= count c -> pres G D R (loc L m).
Proof. intros G D R c m H HD i Hi Hn. rewrite <- (H i Hi Hn). symmetry. apply view_low. lia. Qed.
Lemma pres_view : forall G D R c m, pres G D R (loc L m) -> push c = None -> pres G D R (view c m).
Proof. intros G D R c m H HP i Hi Hn. rewrite view_flat by exact HP. apply H; assumption. Qed.
Lemma top_room : forall c D, depth c = S D -> D <= count c.
Proof. intros c D H. pose proof (depth_count c). lia. Qed.
Lemma assign_names : forall G e m P x v, menv P G e m -> Forall2 (fun p q => fst p = fst q) G (assign x v e).
Proof.
  intros G e m P x v H. induction H as [|[y j] [z u] G e [H1 H2] HF IHF]; cbn [assign]; [constructor|]. destruct (Nat.eqb z x).
  - constructor; [exact H1|]. clear -HF. induction HF as [|p q G e [K _] HF IHF]; constructor; auto.
  - constructor; auto.
Qed.
Lemma wrote_slot : forall d v m m' i j, wrote d v m m' -> d = dest j -> i <> j -> j <> Special -> slot m' i = slot m i.
Proof.
  intros d v m m' i j (H1 & H2 & _) -> N NS. destruct i as [|a|a]; [reflexivity|..]; cbn [slot].
  - rewrite H1. destruct j as [|b|b]; cbn [dest]; [congruence|..]; [|reflexivity]. destruct (Nat.eqb_spec a b); [congruence|reflexivity].
  - rewrite H2. destruct j as [|b|b]; cbn [dest]; [congruence|..]; [reflexivity|]. destruct (Nat.eqb_spec a b); [congruence|reflexivity].
Qed.
Lemma wrote_same : forall v m m' j, wrote (dest j) v m m' -> j <> Special -> slot m' j = Some v.
Proof.
  intros v m m' [|b|b] (H1 & H2 & _) NS; [congruence|..]; cbn [slot dest] in *; [rewrite H1|rewrite H2]; rewrite Nat.eqb_refl; reflexivity.
Qed.
Lemma menv_assign : forall G e m m' x i v, menv (fun _ => True) G e m -> assq x G = Some i -> i <> Special -> NoDup (locals G) -> wrote (dest i) v m m' ->
  menv (fun _ => True) G (assign x v e) m'.
Proof.
  intros G e m m' x i v H. induction H as [|[y j] [z u] G e [H1 H2] HF IHF]; cbn [assq assign locals map snd]; intros E NS ND HW; [discriminate|].
  cbn [fst snd] in *. subst z. inversion ND as [|? ? N1 N2]; subst. destruct (Nat.eqb y x).
  - injection E as ->. constructor; [split; [reflexivity|]; intros _; eapply wrote_same; eauto|].
    apply (menv_ext (fun _ => True) (fun _ => True) _ _ m m'); [exact HF|]. intros k HIn _. split; [exact I|]. eapply wrote_slot; [exact HW|reflexivity| |exact NS]. intros ->. contradiction.
  - constructor; [split; [reflexivity|]; intros _|apply IHF; assumption]. cbn [snd]. rewrite (wrote_slot _ _ _ _ j i HW eq_refl); [apply H2; exact I| |exact NS].
    intros ->. apply N1. clear -E. induction G as [|[a b] G IHG]; cbn [assq] in E; [discriminate|]. destruct (Nat.eqb a x); [injection E as ->; left; reflexivity|right; auto].
Qed.
Lemma in_assq : forall (G : ctx) x i, assq x G = Some i -> In i (locals G).
Proof. induction G as [|[a b] G IHG]; intros x i E; cbn [assq] in E; [discriminate|]. destruct (Nat.eqb a x); [injection E as ->; left; reflexivity|right; eauto]. Qed.
Lemma dest_ok : forall i, i <> Special -> match dest i with CW | CLocal _ | CArg _ => True | _ => False end.
Proof. intros [|k|k] H; exact I. Qed.

Lemma store_var_run : forall x c a c' o G bs m e s v, good special (ids c) G (scope c) x -> store_var special x c = Some (a, c', o) -> lay c G bs -> inv G bs m e s ->
  view c m (depth c - 1) = Cell v ->
  exists m1, (forall k, reach (Running L (o ++ k) m) (Running L k m1)) /\ inv G bs m1 (fst (write L x v e s)) (snd (write L x v e s)) /\ pres G (depth c - 1) (view c m) (loc L m1) /\ c' = popped c.
Proof.
  intros x c a c' o G bs m e s v HG H HL HI HV. apply store_var_inv with (G := G) in H as (HD & -> & HE); [|exact HG].
  pose proof (depth_count c) as DC. unfold write, special in *. destruct (CompLang.special L x).
  - subst o. exists (set_gl L m (upd (mgl L m) x v)). split.
    + intro k. rewrite one. eapply reach_next; [|apply reach_refl]. cbn [step]. unfold on. rewrite (top_value _ _ _ HD HV). reflexivity.
    + destruct HI as (I1 & I2 & I3 & I4). split; [|split; [|reflexivity]].
      * cbn [fst snd]. split; [exact I1|]. split; [exact I2|]. split; [cbn; rewrite I3; reflexivity|exact I4].
      * intros i Hi _. symmetry. rewrite view_low by lia. reflexivity.
  - destruct HE as (i & E1 & E2 & ->). destruct (store_run c (dest i) m v (dest_ok i E2) HD HV) as (m1 & HR & HW). exists m1. split; [exact HR|].
    destruct HI as (I1 & I2 & I3 & I4). destruct (menv_find _ _ _ _ _ I1 E1) as (u & E3 & _). rewrite E3. cbn [fst snd].
    pose proof HW as (W1 & W2 & W3 & W4 & W5 & W6). pose proof (in_assq _ _ _ E1) as HIn. split; [split; [|split; [|split]]|split; [|reflexivity]].
    + eapply menv_assign; eauto. apply (ly_nodup _ _ _ HL).
    + rewrite W4. eapply chain_ext; [exact I2|]. intros b j Hb Hj. rewrite W1. destruct i as [|q|q]; [congruence|..]; cbn [dest]; [|reflexivity].
      destruct (Nat.eqb_spec j q) as [->|]; [|reflexivity]. destruct (ly_disj _ _ _ HL b q Hb HIn); lia.
    + congruence.
    + congruence.
    + intros j Hj Hn. rewrite W1, view_low by lia. destruct i as [|q|q]; [congruence|..]; cbn [dest]; [|reflexivity].
      destruct (Nat.eqb_spec j q) as [->|]; [contradiction|reflexivity].
Qed.
Lemma write_read : forall x v e s u, (if CompLang.special L x then True else assoc x e = Some u) -> read L x (fst (write L x v e s)) (snd (write L x v e s)) = v.
Proof.
  intros x v e s u H. unfold read, write. destruct (CompLang.special L x); cbn [fst snd gl].
  - unfold upd. rewrite Nat.eqb_refl. reflexivity.
  - rewrite H. cbn [fst snd]. assert (E : assoc x (assign x v e) = Some v); [|rewrite E; reflexivity].
    clear -H. induction e as [|[y q] r IHr]; cbn [assoc assign] in *; [discriminate|]. destruct (Nat.eqb y x) eqn:E; cbn [assoc]; rewrite E; auto.
Qed.
Lemma dup_value : forall c m v, 0 < depth c -> view c m (depth c - 1) = Cell v -> value L (dup_expr c) (flushed c m) = Some v.
Proof.
  intros c m v HD HV. pose proof (top_value _ _ _ HD HV) as HT. pose proof (pend_view _ _ _ HV) as HP. unfold dup_expr.
  assert (X : value L (CLocal (depth c - 1)) (flushed c m) = Some v) by (cbn [value]; rewrite flushed_loc by exact HP; rewrite HV; reflexivity).
  destruct (push c) as [E|] eqn:P; [destruct E|]; try exact X. unfold topexpr in HT. rewrite P in HT.
  destruct (flushed_rest c m) as (_ & _ & E & _). cbn [value] in *. rewrite E. exact HT.
Qed.

Lemma setq_run : forall l c c' u o G bs post m e s N, forallb (fun p => plain (snd p)) l = true -> pre c G (flat_map (fun p => fst p :: fv (snd p)) l) (forallb (fun p => letfree (snd p)) l) ->
  setq special comp l c = Some (u, c', o) -> suffix (o ++ post) prog -> lay c G bs -> inv G bs m e s -> pend c m ->
  (forall a, In a l -> N <= n - height (snd a)) ->
  outcome (blocks c) (tags c) G bs (view c m) (Running L (o ++ post) m) N (ev_setq L (eval n) l e s) (top c' G bs (depth c) (view c m) post).
Proof.
  induction l as [|[x a] r IHl]; intros c c' u o G bs post m e s N HP HA H HS HL HI HPE HN.
  - cbn [setq ev_setq] in *. known. destruct (push_run c G bs m e s (CConst NIL) NIL post HL HI HPE eq_refl) as (m1 & HR & H1 & H2 & H3).
    eapply out_reach; [exact HR|]. apply done; assumption.
  - pose proof (keep_refl (forallb (fun p => letfree (snd p)) ((x, a) :: r)) c) as K. cbn [ev_setq].
    assert (X : exists v1 c1 o1 o2 kk, comp a c = Some (v1, c1, o1) /\ kk c1 = Some (u, c', o2) /\ o = o1 ++ o2 /\
      kk = match r with [] => (i <- variable special x ;; match i with Special => dupe ;; store_var special x | _ => store_var special x ;; load_var special x end)
           | _ => store_var special x ;; setq special comp r end).
    { cbn [setq] in H. step H v1 c1 o1 B1. eexists v1, c1, o1, _, _. split; [exact B1|]. split; [exact H|]. split; reflexivity. }
    destruct X as (v1 & c1 & o1 & o2 & kk & B1 & B2 & -> & Ek). right_assoc.
    eapply (use _ n a (IH a)); [exact K|exact HA|inc|lfi|bt|exact B1|exact HS|exact HL|lia|exact HI|exact HPE|apply pres_refl|apply count_depth|apply (HN (x, a)); left; reflexivity|].
    intros v e' s' m2 H1 H2 H3. adv a HA K B1 D1. apply suffix_app in HS.
    assert (Gx : good special (ids c1) G (scope c1) x) by (eapply good_keep; [exact HA|exact K|cbn [flat_map fst]; left; reflexivity]).
    assert (HL1 : lay c1 G bs) by (eapply lay_later; [exact HL|exact K|]; pose proof (count_depth c); pose proof (depth_count c1); lia).
    assert (EQ : depth c1 - 1 = depth c) by lia. pose proof H2 as H2'. rewrite <- EQ in H2'.
    destruct r as [|q r].
    + subst kk. step B2 i c2 o3 B3. destruct (variable_inv _ _ _ _ _ _ _ Gx B3) as (-> & -> & E). right_assoc.
      destruct (special x) eqn:SX.
      * subst i. step B2 v4 c4 o4 B4. known. right_assoc.
        apply store_var_inv with (G := G) in B2 as (D2 & -> & E); [|exact Gx]. rewrite SX in E. rewrite E in *.
        eapply out_reach; [apply flush_run; eapply pend_view; exact H2'|]. rewrite one. eapply out_reach.
        { eapply reach_next; [|apply reach_refl]. cbn [step topexpr push pc]. unfold on. rewrite (dup_value c1 m2 v) by (exact H2' || lia). reflexivity. }
        destruct (inv_flush _ _ _ _ _ _ HL1 H1 (pend_view _ _ _ H2')) as (I1 & I2 & I3 & I4).
        unfold write. change (CompLang.special L x) with (special x). rewrite SX. cbn [fst snd]. apply done.
        -- split; [exact I1|]. split; [exact I2|]. split; [cbn; rewrite I3; reflexivity|exact I4].
        -- rewrite view_flat by reflexivity. cbn [loc set_gl]. rewrite flushed_loc by (eapply pend_view; exact H2'). exact H2.
        -- intros j Hj Hn. rewrite view_flat by reflexivity. cbn [loc set_gl]. rewrite flushed_loc by (eapply pend_view; exact H2'). apply H3; assumption.
      * match type of B2 with _ = Some (_, _, ?oo) => assert (B2' : (store_var special x ;; load_var special x) c1 = Some (u, c', oo)) by (destruct i; [destruct E; congruence|exact B2|exact B2]) end.
        clear B2. step B2' v4 c4 o4 B4. right_assoc.
        destruct (store_var_run _ _ _ _ _ _ _ _ _ _ v Gx B4 HL1 H1 H2') as (m3 & HR & J1 & J2 & ->). eapply out_reach; [apply HR|].
        assert (HLp : lay (popped c1) G bs) by (apply (lay_ext c); [exact HL|cbn; apply (kp_blocks _ _ _ K)|cbn; apply (kp_tags _ _ _ K)|cbn; apply (kp_unwinds _ _ _ K)|cbn; pose proof (count_depth c); lia]).
        destruct (load_run x (popped c1) u c' _ G bs m3 _ _ post Gx B2' HLp J1 I) as (m4 & HR2 & J3 & J4 & J5). eapply out_reach; [exact HR2|].
        destruct E as (E & _). destruct H1 as (I1 & _). destruct (menv_find _ _ _ _ _ I1 E) as (v0 & E0 & _).
        assert (WR : read L x (fst (write L x v e' s')) (snd (write L x v e' s')) = v) by (apply (write_read x v e' s' v0); change (CompLang.special L x) with (special x); rewrite SX; exact E0).
        rewrite WR in J4. assert (DP : depth (popped c1) = depth c) by (rewrite depth_popped; lia). rewrite DP in *. apply done; [exact J3|exact J4|].
        rewrite EQ in J2. eapply pres_trans; [|exact J5|lia]. apply pres_view; [|reflexivity]. eapply pres_trans; [exact H3|exact J2|lia].
    + set (qr := q :: r) in *. change (match qr with [] => ?a | _ => ?b end) with b in *. subst kk. step B2 v4 c4 o4 B4. right_assoc.
      destruct (store_var_run _ _ _ _ _ _ _ _ _ _ v Gx B4 HL1 H1 H2') as (m3 & HR & J1 & J2 & ->). eapply out_reach; [apply HR|]. apply suffix_app in HS.
      mov K (popped c1). assert (DP : depth (popped c1) = depth c) by (rewrite depth_popped; lia). rewrite EQ in J2.
      assert (CP : count c <= count (popped c1)) by (cbn; pose proof (count_depth c); lia).
      match goal with |- outcome _ _ _ _ _ ?run _ _ _ => change (outcome (blocks c) (tags c) G bs (view c m) run N (ev_setq L (eval n) qr (fst (write L x v e' s')) (snd (write L x v e' s'))) (top c' G bs (depth c) (view c m) post)) end.
      rewrite <- DP. eapply (into _ c (popped c1)); [|exact K|exact HL| |rewrite DP; apply count_depth|apply Nat.le_refl].
      * eapply IHl; [bt|eapply pre_keep; [exact HA|exact K|inc|lfi]|exact B2|exact HS|eapply lay_later; [exact HL|exact K|exact CP]|exact J1|exact I|intros; apply HN; right; assumption].
      * rewrite DP. apply pres_view; [|reflexivity]. eapply pres_trans; [exact H3|exact J2|lia].
Qed.
Lemma setq_sound : forall l, sound (S n) (Setq l).
Proof.
  intros l c c' u o G bs post m e s HP HA HC HS HL HI HPE. change (comp (Setq l)) with (setq special comp l) in HC.
  eapply setq_run; eauto. intros a HIn. cbn [height]. pose proof (list_max_in _ (fun p : nat * exp => height (snd p)) l a HIn). lia.
Qed.

(** *** Jumps *)
Lemma label_end : forall bl tg G bs c1 cf D R ex post m v e s N, push cf = None -> depth c1 = S D -> lay c1 G bs -> inv G bs m e s -> view c1 m D = Cell v ->
  pres G D R (view c1 m) -> outcome bl tg G bs R (Running L (flush c1 ++ SLabel ex :: post) m) N (Some (Normal v e s)) (top cf G bs D R post).
Proof.
  intros bl tg G bs c1 cf D R ex post m v e s N HF HD HL HI HV HP. assert (PE : pend c1 m) by (apply (pend_view c1 m v); rewrite HD; replace (S D - 1) with D by lia; exact HV).
  eapply out_reach; [apply flush_run; exact PE|]. eapply out_reach; [eapply reach_next; [reflexivity|apply reach_refl]|]. apply done.
  - apply inv_flush; assumption.
  - rewrite view_flat by exact HF. rewrite flushed_loc; assumption.
  - apply pres_view; [|exact HF]. intros i Hi Hn. rewrite flushed_loc by exact PE. apply HP; assumption.
Qed.
Lemma jump_end : forall bl tg G bs c1 cf D R ex k post m v e s N, suffix (SLabel ex :: post) prog -> push cf = None -> depth c1 = S D -> lay c1 G bs -> inv G bs m e s -> view c1 m D = Cell v ->
  pres G D R (view c1 m) -> outcome bl tg G bs R (Running L (flush c1 ++ SGoto ex :: k) m) N (Some (Normal v e s)) (top cf G bs D R post).
Proof.
  intros bl tg G bs c1 cf D R ex k post m v e s N HS HF HD HL HI HV HP. assert (PE : pend c1 m) by (apply (pend_view c1 m v); rewrite HD; replace (S D - 1) with D by lia; exact HV).
  eapply out_reach; [apply flush_run; exact PE|]. eapply out_reach; [eapply reach_next; [cbn [step]; apply goto_here; exact HS|apply reach_refl]|]. apply done.
  - apply inv_flush; assumption.
  - rewrite view_flat by exact HF. rewrite flushed_loc; assumption.
  - apply pres_view; [|exact HF]. intros i Hi Hn. rewrite flushed_loc by exact PE. apply HP; assumption.
Qed.
Lemma V_eqb_nil : forall v, V_eqb v NIL = true -> v = NIL. Proof. intros [| |k] H; [reflexivity|discriminate..]. Qed.
Lemma lay_top : forall lf c c1 G bs, lay c G bs -> keep lf c c1 -> depth c1 = S (depth c) -> lay c1 G bs.
Proof. intros lf c c1 G bs HL K HD. eapply lay_later; [exact HL|exact K|]. pose proof (count_depth c). pose proof (depth_count c1). lia. Qed.
Lemma suffix_mid : forall a b p, suffix (a ++ b) p -> suffix b p. Proof. exact suffix_app. Qed.

Lemma if_sound : forall p a b, sound (S n) (If p a b).
Proof.
  intros p a b c c' u o G bs post m e s HP HA HC HS HL HI HPE. pose proof (keep_refl (letfree (If p a b)) c) as K.
  change (comp (If p a b)) with (elselab <- genlabel ;; exitlab <- genlabel ;; evcon comp p None (Some elselab) ;; comp a ;; jump exitlab ;; adjust 1 ;; label elselab ;; comp b ;; label exitlab) in HC.
  step HC v1 c1 o1 B1. known. step HC v1 c1 o1 B1. known. mov K (with_lab c (S (lab c))). mov K (with_lab (with_lab c (S (lab c))) (S (lab (with_lab c (S (lab c)))))).
  set (c2 := with_lab (with_lab c (S (lab c))) _) in *. step HC v3 c3 o3 B3. step HC v4 c4 o4 B4. step HC v5 c5 o5 B5. known. step HC v6 c6 o6 B6. known.
  step HC v7 c7 o7 B7. known. step HC v8 c8 o8 B8. known. right_assoc. cbn [flush push flat pc] in *. rewrite ?app_nil_l in *. rewrite !one in *.
  change (eval (S n) (If p a b) e s) with (obind L (eval n p e s) (fun v e s => if V_eqb v NIL then eval n b e s else eval n a e s)).
  assert (HN : S n - height (If p a b) <= n - height p /\ S n - height (If p a b) <= n - height a /\ S n - height (If p a b) <= n - height b) by (cbn [height]; lia).
  destruct HN as (N1 & N2 & N3).
  eapply (useC _ n p (IHc p)) with (D := depth c); [left; reflexivity|exact K|exact HA|inc|lfi|bt|exact B3|exact HS|exact HL|cbn; lia|exact HI|exact HPE|apply pres_refl|apply count_depth|exact N1|].
  intros v e' s' m2 H1 H2. advC p HA K B3 P3 D3. change (depth c2) with (depth c) in *. change (view c2 m) with (view c m) in *. apply suffix_app in HS. cbn [branch].
  pose proof K as K3. adv a HA K B4 D4. mov K (flat c4). mov K (pc (flat c4) None (count (flat c4) - 1)). mov K (flat (pc (flat c4) None (count (flat c4) - 1))).
  set (c7 := flat (pc (flat c4) None (count (flat c4) - 1))) in *. assert (CC : count c <= depth c) by apply count_depth.
  assert (D3' : depth c3 = depth c) by (unfold depth, pending; rewrite P3; unfold depth in D3; unfold pending in *; lia).
  pose proof HS as HSa. apply suffix_app in HS. apply suffix_app in HS. apply suffix_cons in HS. pose proof HS as HSe. apply suffix_cons in HS.
  assert (HSx : suffix (SLabel (S (lab (with_lab c (S (lab c))))) :: post) prog) by (apply (suffix_app (o8 ++ flush c8)); rewrite <- app_assoc; exact HS).
  destruct (V_eqb v NIL).
  - rewrite (goto_here _ _ _ HSe). eapply (use_last n b (IH b)) with (D := depth c); [exact K|exact HA|inc|lfi|bt|exact B8|exact HS|exact HL|cbn; rewrite D4; lia|exact H1|exact I| |lia|exact N3|].
    + apply pres_view; [exact H2|reflexivity].
    + intros v2 e2 s2 m3 J1 J2 J3. adv b HA K B8 D8. assert (D7 : depth c7 = depth c) by (unfold c7; rewrite depth_flat, depth_pc0; cbn [count flat pc]; lia). rewrite D7 in *.
      apply label_end; try assumption; [reflexivity|eapply lay_top; eauto|]. eapply pres_trans; [|exact J3|lia]. apply pres_view; [exact H2|reflexivity].
  - eapply (use_last n a (IH a)) with (D := depth c); [exact K3|exact HA|inc|lfi|bt|exact B4|exact HSa|exact HL|lia|exact H1|unfold pend; rewrite P3; exact I| |lia|exact N2|].
    + apply pres_view; [exact H2|exact P3].
    + intros v2 e2 s2 m3 J1 J2 J3. rewrite D3' in *. eapply jump_end; try eassumption; [reflexivity| |].
      * apply (lay_ext c); [exact HL|apply (kp_blocks _ _ _ K)|apply (kp_tags _ _ _ K)|apply (kp_unwinds _ _ _ K)|]. pose proof (depth_count c4). lia.
      * eapply pres_trans; [|exact J3|lia]. apply pres_view; [exact H2|exact P3].
Qed.

(** *** and, or *)
Lemma dup_nil : forall c m v x k, 0 < depth c -> view c m (depth c - 1) = Cell v ->
  reach (Running L (flush c ++ SIfNil (dup_expr c) x :: k) m) (if V_eqb v NIL then goto x (flushed c m) else Running L k (flushed c m)).
Proof.
  intros c m v x k HD HV. eapply reach_trans; [apply flush_run; eapply pend_view; exact HV|]. eapply reach_next; [|apply reach_refl].
  cbn [step]. unfold on. rewrite (dup_value c m v HD HV). reflexivity.
Qed.
Lemma dup_t : forall c m v x k, 0 < depth c -> view c m (depth c - 1) = Cell v ->
  reach (Running L (flush c ++ SIfT (dup_expr c) x :: k) m) (if V_eqb v NIL then Running L k (flushed c m) else goto x (flushed c m)).
Proof.
  intros c m v x k HD HV. eapply reach_trans; [apply flush_run; eapply pend_view; exact HV|]. eapply reach_next; [|apply reach_refl].
  cbn [step]. unfold on. rewrite (dup_value c m v HD HV). reflexivity.
Qed.
Lemma flushed_done : forall bl tg G bs c1 cf D R post m v e s N, push cf = None -> depth c1 = S D -> lay c1 G bs -> inv G bs m e s -> view c1 m D = Cell v ->
  pres G D R (view c1 m) -> outcome bl tg G bs R (Running L post (flushed c1 m)) N (Some (Normal v e s)) (top cf G bs D R post).
Proof.
  intros bl tg G bs c1 cf D R post m v e s N HF HD HL HI HV HP. assert (PE : pend c1 m) by (apply (pend_view c1 m v); rewrite HD; replace (S D - 1) with D by lia; exact HV).
  apply done.
  - apply inv_flush; assumption.
  - rewrite view_flat by exact HF. rewrite flushed_loc; assumption.
  - apply pres_view; [|exact HF]. intros i Hi Hn. rewrite flushed_loc by exact PE. apply HP; assumption.
Qed.
Lemma pres_flushed : forall G D R c m, pres G D R (view c m) -> pend c m -> pres G D R (loc L (flushed c m)).
Proof. intros G D R c m H HP i Hi Hn. rewrite flushed_loc by exact HP. apply H; assumption. Qed.

Lemma and_run : forall l x c c' u o G bs post m e s N cf, push cf = None -> forallb plain l = true -> pre c G (flat_map fv l) (forallb letfree l) ->
  and_ comp l x c = Some (u, c', o) -> suffix (o ++ flush c' ++ SLabel x :: post) prog -> lay c G bs -> inv G bs m e s -> pend c m ->
  (forall a, In a l -> N <= n - height a) ->
  outcome (blocks c) (tags c) G bs (view c m) (Running L (o ++ flush c' ++ SLabel x :: post) m) N (ev_and L (eval n) l e s) (top cf G bs (depth c) (view c m) post).
Proof.
  induction l as [|a r IHl]; intros x c c' u o G bs post m e s N cf HF HP HA H HS HL HI HPE HN.
  - cbn [and_ ev_and] in *. known. destruct (push_run c G bs m e s (CConst NIL) NIL (flush (pc c (Some (CConst NIL)) (depth c)) ++ SLabel x :: post) HL HI HPE eq_refl) as (m1 & HR & H1 & H2 & H3).
    eapply out_reach; [exact HR|]. apply label_end; try assumption; [apply depth_pc|]. eapply lay_ext; [exact HL|reflexivity..|apply count_depth].
  - pose proof (keep_refl (forallb letfree (a :: r)) c) as K. destruct r as [|b r].
    + cbn [and_ ev_and] in *. eapply (use_last n a (IH a)); [exact K|exact HA|inc|lfi|bt|exact H|exact HS|exact HL|lia|exact HI|exact HPE|apply pres_refl|apply count_depth|apply HN; left; reflexivity|].
      intros v e' s' m2 H1 H2 H3. adv a HA K H D1. apply label_end; try assumption. eapply lay_top; eauto.
    + rewrite and_cons in H by discriminate. change (ev_and L (eval n) (a :: b :: r) e s) with (obind L (eval n a e s) (fun v e s => if V_eqb v NIL then Some (Normal NIL e s) else ev_and L (eval n) (b :: r) e s)).
      set (br := b :: r) in *. step H v1 c1 o1 B1. step H v2 c2 o2 B2. known. step H v3 c3 o3 B3. unfold if_nil in B3. step B3 v4 c4 o4 B4. known.
      apply pop_inv in B4 as (D4 & -> & -> & ->). rewrite pop_dup in *. step H v5 c5 o5 B5. known. right_assoc. change (topexpr (pc c1 (Some (dup_expr c1)) (depth c1))) with (dup_expr c1) in *.
      eapply (use _ n a (IH a)); [exact K|exact HA|inc|lfi|bt|exact B1|exact HS|exact HL|lia|exact HI|exact HPE|apply pres_refl|apply count_depth|apply HN; left; reflexivity|].
      intros v e' s' m2 H1 H2 H3. adv a HA K B1 D1. apply suffix_app in HS. rewrite one in *.
      assert (HV : view c1 m2 (depth c1 - 1) = Cell v) by (rewrite D1; replace (S (depth c) - 1) with (depth c) by lia; exact H2).
      pose proof (pend_view _ _ _ HV) as PE. assert (HL1 : lay c1 G bs) by (eapply lay_top; eauto).
      eapply out_reach; [apply (dup_nil c1 m2 v); [lia|exact HV]|]. apply suffix_app in HS. apply suffix_cons in HS. destruct (V_eqb v NIL) eqn:EV.
      * apply V_eqb_nil in EV as ->. erewrite goto_here; [|eapply suffix_app; rewrite app_assoc in HS; exact HS].
        apply flushed_done; assumption.
      * mov K (flat c1). mov K (popped (flat c1)). assert (DP : depth (popped (flat c1)) = depth c) by (rewrite depth_popped, depth_flat; lia).
        rewrite <- DP. eapply (into _ c (popped (flat c1)) _ _ _ _ (view (popped (flat c1)) (flushed c1 m2))); [|exact K|exact HL|rewrite DP; apply pres_view; [eapply pres_flushed; [exact H3|exact PE]|reflexivity]|rewrite DP; apply count_depth|apply Nat.le_refl].
        eapply IHl; [exact HF|bt|eapply pre_keep; [exact HA|exact K|inc|lfi]|exact H|exact HS|eapply lay_later; [exact HL|exact K|]|apply inv_flush; assumption|exact I|intros; apply HN; right; assumption].
        cbn [count popped pc flat]. rewrite depth_flat. pose proof (count_depth c). lia.
Qed.
Lemma and_sound : forall l, sound (S n) (And l).
Proof.
  intros l c c' u o G bs post m e s HP HA HC HS HL HI HPE. change (comp (And l)) with (exit <- genlabel ;; and_ comp l exit ;; label exit) in HC.
  step HC v1 c1 o1 B1. known. step HC v2 c2 o2 B2. known. right_assoc. rewrite one in *.
  apply (and_run l (S (lab c)) (with_lab c (S (lab c))) c2 v2 o2 G bs post m e s _ (flat c2)); try assumption; [reflexivity|apply (lay_ext c); [exact HL|reflexivity..|cbn; lia]|].
  intros a HIn. cbn [height]. pose proof (list_max_in _ height l a HIn). lia.
Qed.

Lemma or_run : forall l x c c' u o G bs post m e s N cf, push cf = None -> forallb plain l = true -> pre c G (flat_map fv l) (forallb letfree l) ->
  or_ comp l x c = Some (u, c', o) -> suffix (o ++ flush c' ++ SLabel x :: post) prog -> lay c G bs -> inv G bs m e s -> pend c m ->
  (forall a, In a l -> N <= n - height a) ->
  outcome (blocks c) (tags c) G bs (view c m) (Running L (o ++ flush c' ++ SLabel x :: post) m) N (ev_or L (eval n) l e s) (top cf G bs (depth c) (view c m) post).
Proof.
  induction l as [|a r IHl]; intros x c c' u o G bs post m e s N cf HF HP HA H HS HL HI HPE HN.
  - cbn [or_ ev_or] in *. known. destruct (push_run c G bs m e s (CConst NIL) NIL (flush (pc c (Some (CConst NIL)) (depth c)) ++ SLabel x :: post) HL HI HPE eq_refl) as (m1 & HR & H1 & H2 & H3).
    eapply out_reach; [exact HR|]. apply label_end; try assumption; [apply depth_pc|]. eapply lay_ext; [exact HL|reflexivity..|apply count_depth].
  - pose proof (keep_refl (forallb letfree (a :: r)) c) as K. destruct r as [|b r].
    + cbn [or_ ev_or] in *. eapply (use_last n a (IH a)); [exact K|exact HA|inc|lfi|bt|exact H|exact HS|exact HL|lia|exact HI|exact HPE|apply pres_refl|apply count_depth|apply HN; left; reflexivity|].
      intros v e' s' m2 H1 H2 H3. adv a HA K H D1. apply label_end; try assumption. eapply lay_top; eauto.
    + rewrite or_cons in H by discriminate. change (ev_or L (eval n) (a :: b :: r) e s) with (obind L (eval n a e s) (fun v e s => if V_eqb v NIL then ev_or L (eval n) (b :: r) e s else Some (Normal v e s))).
      set (br := b :: r) in *. step H v1 c1 o1 B1. step H v2 c2 o2 B2. known. step H v3 c3 o3 B3. unfold if_t in B3. step B3 v4 c4 o4 B4. known.
      apply pop_inv in B4 as (D4 & -> & -> & ->). rewrite pop_dup in *. step H v5 c5 o5 B5. known. right_assoc. change (topexpr (pc c1 (Some (dup_expr c1)) (depth c1))) with (dup_expr c1) in *.
      eapply (use _ n a (IH a)); [exact K|exact HA|inc|lfi|bt|exact B1|exact HS|exact HL|lia|exact HI|exact HPE|apply pres_refl|apply count_depth|apply HN; left; reflexivity|].
      intros v e' s' m2 H1 H2 H3. adv a HA K B1 D1. apply suffix_app in HS. rewrite one in *.
      assert (HV : view c1 m2 (depth c1 - 1) = Cell v) by (rewrite D1; replace (S (depth c) - 1) with (depth c) by lia; exact H2).
      pose proof (pend_view _ _ _ HV) as PE. assert (HL1 : lay c1 G bs) by (eapply lay_top; eauto).
      eapply out_reach; [apply (dup_t c1 m2 v); [lia|exact HV]|]. apply suffix_app in HS. apply suffix_cons in HS. destruct (V_eqb v NIL) eqn:EV.
      * mov K (flat c1). mov K (popped (flat c1)). assert (DP : depth (popped (flat c1)) = depth c) by (rewrite depth_popped, depth_flat; lia).
        rewrite <- DP. eapply (into _ c (popped (flat c1)) _ _ _ _ (view (popped (flat c1)) (flushed c1 m2))); [|exact K|exact HL|rewrite DP; apply pres_view; [eapply pres_flushed; [exact H3|exact PE]|reflexivity]|rewrite DP; apply count_depth|apply Nat.le_refl].
        eapply IHl; [exact HF|bt|eapply pre_keep; [exact HA|exact K|inc|lfi]|exact H|exact HS|eapply lay_later; [exact HL|exact K|]|apply inv_flush; assumption|exact I|intros; apply HN; right; assumption].
        cbn [count popped pc flat]. rewrite depth_flat. pose proof (count_depth c). lia.
      * erewrite goto_here; [|eapply suffix_app; rewrite app_assoc in HS; exact HS]. apply flushed_done; assumption.
Qed.
Lemma or_sound : forall l, sound (S n) (Or l).
Proof.
  intros l c c' u o G bs post m e s HP HA HC HS HL HI HPE. change (comp (Or l)) with (exit <- genlabel ;; or_ comp l exit ;; label exit) in HC.
  step HC v1 c1 o1 B1. known. step HC v2 c2 o2 B2. known. right_assoc. rewrite one in *.
  apply (or_run l (S (lab c)) (with_lab c (S (lab c))) c2 v2 o2 G bs post m e s _ (flat c2)); try assumption; [reflexivity|apply (lay_ext c); [exact HL|reflexivity..|cbn; lia]|].
  intros a HIn. cbn [height]. pose proof (list_max_in _ height l a HIn). lia.
Qed.

(** *** cond *)
Lemma progn_use : forall l LF c0 c1 c2 u o G bs X k m1 e s R D N Q, keep LF c0 c1 -> pre c0 G X LF -> incl (flat_map fv l) X -> (LF = true -> forallb letfree l = true) -> forallb plain l = true ->
  progn comp l c1 = Some (u, c2, o) -> suffix (o ++ k) prog -> lay c0 G bs -> count c0 <= count c1 -> inv G bs m1 e s -> pend c1 m1 ->
  pres G D R (view c1 m1) -> count c0 <= D -> (forall a, In a l -> N <= n - height a) ->
  (forall v e' s' m2, inv G bs m2 e' s' -> view c2 m2 (depth c1) = Cell v -> pres G (depth c1) (view c1 m1) (view c2 m2) ->
     outcome (blocks c0) (tags c0) G bs R (Running L k m2) N (Some (Normal v e' s')) Q) ->
  outcome (blocks c0) (tags c0) G bs R (Running L (o ++ k) m1) N (ev_progn L (eval n) l e s) Q.
Proof.
  intros l LF c0 c1 c2 u o G bs X k m1 e s R D N Q K HA HX HLF HP HC HS HL HCO HI HPE HR HD HN HK. rewrite <- (obind_ret _ (ev_progn L (eval n) l e s)).
  pose proof (progn_run l c1 c2 u o G bs k m1 e s N HP (pre_keep _ _ _ _ _ _ _ _ HA K HX HLF) HC HS (lay_later _ _ _ _ _ HL K HCO) HI HPE HN) as H.
  rewrite (kp_blocks _ _ _ K), (kp_tags _ _ _ K) in H.
  eapply out_sub; [exact H|exact HR|eapply lay_offs; eauto|apply Nat.le_refl|]. intros v e' s' c (m2 & -> & H1 & H2 & H3). eauto.
Qed.

Lemma cond_run : forall l x c c' u o G bs post m e s N cf, push cf = None -> forallb (fun p => plain (fst p) && forallb plain (snd p)) l = true ->
  pre c G (flat_map (fun p => fv (fst p) ++ flat_map fv (snd p)) l) (forallb (fun p => letfree (fst p) && forallb letfree (snd p)) l) ->
  cond comp l x c = Some (u, c', o) -> suffix (o ++ flush c' ++ SLocal (depth c') (CConst NIL) :: SLabel x :: post) prog -> lay c G bs -> inv G bs m e s -> pend c m ->
  (forall p, In p l -> N <= n - height (fst p)) -> (forall p a, In p l -> In a (snd p) -> N <= n - height a) ->
  outcome (blocks c) (tags c) G bs (view c m) (Running L (o ++ flush c' ++ SLocal (depth c') (CConst NIL) :: SLabel x :: post) m) N (ev_cond L (eval n) l e s) (top cf G bs (depth c) (view c m) post).
Proof.
  induction l as [|[p body] r IHl]; intros x c c' u o G bs post m e s N cf HF HP HA H HS HL HI HPE HN HNb.
  - cbn [cond ev_cond] in *. known. rewrite app_nil_l in *. eapply out_reach; [apply flush_run; exact HPE|]. eapply out_reach.
    { eapply reach_next; [reflexivity|]. eapply reach_next; [reflexivity|apply reach_refl]. }
    apply done.
    + eapply inv_ext; [exact HL|apply inv_flush; eassumption| |reflexivity..]. intros i Hi. cbn. pose proof (count_depth c). destruct (Nat.eqb_spec i (depth c)); [lia|reflexivity].
    + rewrite view_flat by exact HF. cbn. rewrite Nat.eqb_refl. reflexivity.
    + apply pres_view; [|exact HF]. intros i Hi Hn. cbn. destruct (Nat.eqb_spec i (depth c)); [lia|]. apply flushed_loc. exact HPE.
  - rewrite cond_cons in H. set (LF := forallb (fun p => letfree (fst p) && forallb letfree (snd p)) ((p, body) :: r)) in *. pose proof (keep_refl LF c) as K.
    step H v1 c1 o1 B1. known. mov K (with_lab c (S (lab c))). set (c1 := with_lab c (S (lab c))) in *. step H v2 c2 o2 B2. step H v3 c3 o3 B3. known. right_assoc.
    assert (CC : count c <= depth c) by apply count_depth.
    assert (LFp : LF = true -> letfree p = true) by (unfold LF; lfi). assert (LFb : LF = true -> forallb letfree body = true) by (unfold LF; lfi).
    assert (LFr : LF = true -> forallb (fun p => letfree (fst p) && forallb letfree (snd p)) r = true) by (unfold LF; lfi).
    (* the rest, from the label on *)
    assert (REST : forall m2 e' s', push c2 = None -> count c2 = depth c -> keep LF c c2 -> inv G bs m2 e' s' -> pres G (depth c) (view c m) (loc L m2) ->
      suffix (SLabel (S (lab c)) :: o0 ++ flush c' ++ SLocal (depth c') (CConst NIL) :: SLabel x :: post) prog ->
      outcome (blocks c) (tags c) G bs (view c m) (Running L (o0 ++ flush c' ++ SLocal (depth c') (CConst NIL) :: SLabel x :: post) m2) N (ev_cond L (eval n) r e' s') (top cf G bs (depth c) (view c m) post)).
    { intros m2 e' s' P2 D2 K2 I2 R2 S2. mov K2 (flat c2). assert (DP : depth (flat c2) = depth c) by (rewrite depth_flat; unfold depth at 1, pending; rewrite P2; lia).
      rewrite <- DP. eapply (into _ c (flat c2) _ _ _ _ (view (flat c2) m2)); [|exact K2|exact HL|rewrite DP; apply pres_view; [exact R2|reflexivity]|rewrite DP; apply count_depth|apply Nat.le_refl].
      eapply IHl; [exact HF|bt|eapply pre_keep; [exact HA|exact K2|inc|exact LFr]|exact H|eapply suffix_cons; exact S2|eapply lay_later; [exact HL|exact K2|]|exact I2|exact I|intros; apply HN; right; assumption|intros q a Hq; apply HNb; right; assumption].
      cbn [count flat pc]. unfold depth at 1, pending. rewrite P2. lia. }
    assert (SX : suffix (SLabel x :: post) prog).
    { apply (suffix_app (o2 ++ (flush c2 ++ [SLabel (S (lab c))]) ++ o0 ++ flush c' ++ [SLocal (depth c') (CConst NIL)])). right_assoc. exact HS. }
    cbn [ev_cond]. destruct body as [|b body].
    + cbn [clause] in B2. step B2 v4 c4 o4 B4. step B2 v5 c5 o5 B5. known. step B2 v6 c6 o6 B6. unfold if_t in B6. step B6 v7 c7 o7 B7. known. known.
      apply pop_inv in B7 as (D7 & -> & -> & ->). rewrite pop_dup in *. right_assoc. change (topexpr (pc c4 (Some (dup_expr c4)) (depth c4))) with (dup_expr c4) in *.
      eapply (use _ n p (IH p)) with (D := depth c); [exact K|exact HA|inc|exact LFp|bt|exact B4|exact HS|exact HL|cbn; lia|exact HI|exact HPE|apply pres_refl|exact CC|apply (HN (p, [])); left; reflexivity|].
      intros v e' s' m2 H1 H2 H3. change (depth c1) with (depth c) in *. change (view c1 m) with (view c m) in *. apply suffix_app in HS. rewrite one in *.
      assert (X : keep LF c c4 /\ depth c4 = S (depth c)).
      { destruct (ctof p c1 c4 v4 o4 G) as (K2 & _ & D2); [bt|eapply pre_keep; [exact HA|exact K|inc|exact LFp]|exact B4|]. split; [|exact D2].
        eapply keep_trans; [exact K|eapply keep_weaken; [exact K2|exact LFp]]. }
      destruct X as (K4 & D4).
      assert (HV : view c4 m2 (depth c4 - 1) = Cell v) by (rewrite D4; replace (S (depth c) - 1) with (depth c) by lia; exact H2).
      pose proof (pend_view _ _ _ HV) as PE. assert (HL1 : lay c4 G bs) by (eapply lay_top; eauto).
      eapply out_reach; [apply (dup_t c4 m2 v); [lia|exact HV]|]. apply suffix_app in HS. apply suffix_cons in HS. destruct (V_eqb v NIL) eqn:EV.
      * mov K4 (flat c4). mov K4 (popped (flat c4)). cbn [flush popped flat pc push] in HS |- *. rewrite ?app_nil_l in *. rewrite ?one in *. eapply out_reach; [eapply reach_next; [reflexivity|apply reach_refl]|].
        apply REST; [reflexivity|cbn [count popped pc]; rewrite depth_flat; lia|exact K4|apply inv_flush; assumption|eapply pres_flushed; [exact H3|exact PE]|exact HS].
      * rewrite (goto_here _ _ _ SX). apply flushed_done; assumption.
    + set (bb := b :: body) in *.
      change (clause comp x (S (lab c)) p bb) with ((if is_t p then ret tt else evcon comp p None (Some (S (lab c)))) ;; progn comp bb ;; jump x ;; adjust 1) in B2.
      step B2 v4 c4 o4 B4. step B2 v5 c5 o5 B5. step B2 v6 c6 o6 B6. known. known. right_assoc. rewrite !one in *. cbn [flush push flat pc] in HS |- *. rewrite ?app_nil_l in *.
      (* the body *)
      assert (BODY : forall m2 v e' s', keep LF c c4 -> depth c4 = depth c -> count c <= count c4 -> pend c4 m2 -> inv G bs m2 e' s' -> pres G (depth c) (view c m) (view c4 m2) ->
        V_eqb v NIL = false ->
        outcome (blocks c) (tags c) G bs (view c m) (Running L (o5 ++ flush c5 ++ SGoto x :: SLabel (S (lab c)) :: o0 ++ flush c' ++ SLocal (depth c') (CConst NIL) :: SLabel x :: post) m2) N
          (if V_eqb v NIL then ev_cond L (eval n) r e' s' else ev_progn L (eval n) bb e' s') (top cf G bs (depth c) (view c m) post)).
      { intros m2 v e' s' K4 D4 C4 P4 I4 R4 ->. apply suffix_app in HS. assert (Pb : forallb plain bb = true) by bt.
        eapply (progn_use bb) with (D := depth c); [exact K4|exact HA|inc|exact LFb|exact Pb|exact B5|exact HS|exact HL|exact C4|exact I4|exact P4|exact R4|exact CC| |].
        - intros a HIn. apply (HNb (p, bb)); [left; reflexivity|exact HIn].
        - intros v9 e2 s2 m3 J1 J2 J3. rewrite D4 in *.
          destruct (progn_ct special bb (proj2 (Forall_forall _ _) (fun x _ => ctof x)) c4 c5 v5 o5 G Pb) as (K5 & _ & D5); [eapply pre_keep; [exact HA|exact K4|inc|exact LFb]|exact B5|].
          eapply jump_end; try eassumption; [lia| |eapply pres_trans; [exact R4|exact J3|lia]].
          apply (lay_ext c); [exact HL|rewrite (kp_blocks _ _ _ K5); apply (kp_blocks _ _ _ K4)|rewrite (kp_tags _ _ _ K5); apply (kp_tags _ _ _ K4)|rewrite (kp_unwinds _ _ _ K5); apply (kp_unwinds _ _ _ K4)|].
          pose proof (depth_count c5). lia. }
      destruct (is_t p) eqn:IT.
      * destruct p as [[| |]| | | | | | | | | | | | | | | | | | | |]; try discriminate. known. rewrite ?app_nil_l in *.
        destruct n as [|n']; [cbn [CompLang.eval obind outcome]; exists 0; eexists; eexists; split; [|reflexivity]; pose proof (HN _ (or_introl eq_refl)); lia|].
        change (eval (S n') (Const T) e s) with (Some (Normal T e s) : option (out L V)). cbn [obind]. apply (BODY m T e s); [exact K|reflexivity|cbn; lia|exact HPE|exact HI|apply pres_refl|reflexivity].
      * eapply (useC _ n p (IHc p)) with (D := depth c); [left; reflexivity|exact K|exact HA|inc|exact LFp|bt|exact B4|exact HS|exact HL|cbn; lia|exact HI|exact HPE|apply pres_refl|exact CC|apply (HN (p, bb)); left; reflexivity|].
        intros v e' s' m2 H1 H2. change (depth c1) with (depth c) in *. change (view c1 m) with (view c m) in *. cbn [branch].
        assert (X : keep LF c c4 /\ push c4 = None /\ count c4 = depth c).
        { destruct (ctcof p None (Some (S (lab c))) c1 c4 v4 o4 G) as (K2 & _ & P2 & D2); [bt|eapply pre_keep; [exact HA|exact K|inc|exact LFp]|exact B4|]. split; [|auto].
          eapply keep_trans; [exact K|eapply keep_weaken; [exact K2|exact LFp]]. }
        destruct X as (K4 & P4 & D4). assert (D4' : depth c4 = depth c) by (unfold depth at 1, pending; rewrite P4; lia).
        destruct (V_eqb v NIL) eqn:EV.
        -- pose proof HS as HS2. apply suffix_app in HS2. apply suffix_app in HS2. apply suffix_app in HS2. apply suffix_cons in HS2. rewrite (goto_here _ _ _ HS2).
           destruct (progn_ct special bb (proj2 (Forall_forall _ _) (fun x _ => ctof x)) c4 c5 v5 o5 G ltac:(bt)) as (K5 & _ & D5); [eapply pre_keep; [exact HA|exact K4|inc|exact LFb]|exact B5|].
           assert (K6 : keep LF c c5) by (eapply keep_trans; [exact K4|eapply keep_weaken; [exact K5|exact LFb]]). mov K6 (flat c5). mov K6 (pc (flat c5) None (count (flat c5) - 1)).
           apply REST; [reflexivity|cbn [count flat pc]; lia|exact K6|exact H1|exact H2|exact HS2].
        -- specialize (BODY m2 v e' s' K4 D4' ltac:(lia)). rewrite EV in BODY. apply BODY; [unfold pend; rewrite P4; exact I|exact H1|apply pres_view; [exact H2|exact P4]|reflexivity].
Qed.
Lemma cond_sound : forall l, sound (S n) (Cond l).
Proof.
  intros l c c' u o G bs post m e s HP HA HC HS HL HI HPE. change (comp (Cond l)) with (exit <- genlabel ;; cond comp l exit ;; load_const NIL ;; label exit) in HC.
  step HC v1 c1 o1 B1. known. step HC v2 c2 o2 B2. step HC v3 c3 o3 B3. known. known. right_assoc. cbn [flush push pc count] in *. rewrite !one in *.
  eapply (cond_run l (S (lab c)) (with_lab c (S (lab c))) c2 v2 o2 G bs post m e s); try eassumption; [reflexivity|apply (lay_ext c); [exact HL|reflexivity..|cbn; lia]|..].
  - intros p HIn. cbn [height]. pose proof (list_max_in _ (fun p : exp * list exp => max (height (fst p)) (list_max (map height (snd p)))) l p HIn). cbn beta in *. lia.
  - intros p a HIn HI2. cbn [height]. pose proof (list_max_in _ (fun p : exp * list exp => max (height (fst p)) (list_max (map height (snd p)))) l p HIn). pose proof (list_max_in _ height (snd p) a HI2). cbn beta in *. lia.
Qed.

(** *** One instruction *)
Lemma V_eqb_sym : forall a b, V_eqb a b = V_eqb b a.
Proof. intros [| |i] [| |j]; try reflexivity. cbn. apply Nat.eqb_sym. Qed.
Lemma outside : forall c G bs i, lay c G bs -> count c <= i -> ~ In (InLocal i) (locals G).
Proof. intros c G bs i HL Hi HIn. pose proof (ly_local _ _ _ HL i HIn). lia. Qed.
Lemma expr_done : forall bl tg G bs R c1 E D post m v e s N, inv G bs m e s -> value L E m = Some v -> pres G D R (loc L m) ->
  outcome bl tg G bs R (Running L post m) N (Some (Normal v e s)) (top (pc c1 (Some E) D) G bs D R post).
Proof.
  intros bl tg G bs R c1 E D post m v e s N HI HV HP. apply done; [exact HI|unfold view; cbn [push count pc]; rewrite Nat.eqb_refl, HV; reflexivity|].
  intros i Hi Hn. rewrite view_pc by exact Hi. apply HP; assumption.
Qed.
Lemma store_w : forall c c1 G bs m e s v D R, lay c G bs -> count c <= D -> depth c1 = S D -> inv G bs m e s -> view c1 m D = Cell v -> pres G D R (view c1 m) ->
  exists m', (forall k, reach (Running L (store_code CW c1 ++ k) m) (Running L k m')) /\ w L m' = v /\ inv G bs m' e s /\ pres G D R (loc L m').
Proof.
  intros c c1 G bs m e s v D R HL HC HD HI HV HP. assert (HV' : view c1 m (depth c1 - 1) = Cell v) by (rewrite HD; replace (S D - 1) with D by lia; exact HV).
  destruct (store_run c1 CW m v I ltac:(lia) HV') as (m' & HR & W1 & W2 & W3 & W4 & W5 & W6). exists m'. split; [exact HR|]. split; [exact W3|]. split.
  - eapply inv_ext; [exact HL|exact HI|intros; apply W1|exact W2|exact W4|exact W5|exact W6].
  - intros i Hi Hn. rewrite W1. pose proof (depth_count c1). rewrite <- (view_low c1) by lia. apply HP; assumption.
Qed.

Lemma null_sound : forall a, sound (S n) (Null a).
Proof.
  intros a c c' u o G bs post m e s HP HA HC HS HL HI HPE. pose proof (keep_refl (letfree (Null a)) c) as K.
  change (comp (Null a)) with (comp a ;; nullx) in HC. step HC v1 c1 o1 B1. apply nullx_inv in HC as (D0 & -> & ->). right_assoc.
  change (eval (S n) (Null a) e s) with (obind L (eval n a e s) (fun v e s => Some (Normal (truth (V_eqb v NIL)) e s))).
  eapply (use _ n a (IH a)); [exact K|exact HA|inc|lfi|bt|exact B1|exact HS|exact HL|lia|exact HI|exact HPE|apply pres_refl|apply count_depth|cbn [height]; lia|].
  intros v e' s' m2 H1 H2 H3. adv a HA K B1 D1. replace (depth c1 - 1) with (depth c) by lia. apply expr_done; [exact H1| |].
  - cbn [value]. rewrite (top_value c1 m2 v) by (replace (depth c1 - 1) with (depth c) by lia; exact H2 || lia). reflexivity.
  - eapply pres_loc; [exact H3|apply top_room; exact D1].
Qed.
Lemma eq_sound : forall a b, sound (S n) (Eq a b).
Proof.
  intros a b c c' u o G bs post m e s HP HA HC HS HL HI HPE. pose proof (keep_refl (letfree (Eq a b)) c) as K.
  change (comp (Eq a b)) with (comp a ;; comp b ;; eqx) in HC. step HC v1 c1 o1 B1. step HC v2 c2 o2 B2. apply eqx_inv in HC as (D0 & -> & ->). right_assoc.
  change (eval (S n) (Eq a b) e s) with (obind L (eval n a e s) (fun u e s => obind L (eval n b e s) (fun v e s => Some (Normal (truth (V_eqb u v)) e s)))).
  assert (HN : S n - height (Eq a b) <= n - height a /\ S n - height (Eq a b) <= n - height b) by (cbn [height]; lia). destruct HN as (N1 & N2).
  eapply (use _ n a (IH a)); [exact K|exact HA|inc|lfi|bt|exact B1|exact HS|exact HL|lia|exact HI|exact HPE|apply pres_refl|apply count_depth|exact N1|].
  intros v e' s' m2 H1 H2 H3. adv a HA K B1 D1. apply suffix_app in HS. pose proof (count_depth c) as CC. pose proof (depth_count c1) as C1.
  eapply (use _ n b (IH b)) with (D := depth c); [exact K|exact HA|inc|lfi|bt|exact B2|exact HS|exact HL|lia|exact H1|apply (pend_view c1 m2 v); rewrite D1; replace (S (depth c) - 1) with (depth c) by lia; exact H2|exact H3|exact CC|exact N2|].
  intros v3 e3 s3 m3 J1 J2 J3. adv b HA K B2 D2. pose proof (depth_count c2) as C2. replace (depth c2 - 2) with (depth c) by lia. apply expr_done; [exact J1| |].
  - cbn [value]. rewrite (top_value c2 m3 v3) by (replace (depth c2 - 1) with (depth c1) by lia; exact J2 || lia).
    rewrite <- (view_low c2) by lia. rewrite J3 by (lia || (eapply outside; [exact HL|lia])). rewrite H2, V_eqb_sym. reflexivity.
  - eapply pres_loc with (c := c2); [|lia]. eapply pres_trans; [exact H3|exact J3|lia].
Qed.
Lemma is_sound : forall p a, sound (S n) (Is p a).
Proof.
  intros p a c c' u o G bs post m e s HP HA HC HS HL HI HPE. pose proof (keep_refl (letfree (Is p a)) c) as K.
  change (comp (Is p a)) with (comp a ;; type_check_predicate p) in HC. step HC v1 c1 o1 B1. apply tcp_inv in HC as (D0 & -> & ->). right_assoc.
  change (eval (S n) (Is p a) e s) with (obind L (eval n a e s) (fun v e s => Some (Normal (truth (is L p v)) e s))).
  eapply (use _ n a (IH a)); [exact K|exact HA|inc|lfi|bt|exact B1|exact HS|exact HL|lia|exact HI|exact HPE|apply pres_refl|apply count_depth|cbn [height]; lia|].
  intros v e' s' m2 H1 H2 H3. adv a HA K B1 D1. replace (depth c1 - 1) with (depth c) by lia.
  destruct (store_w c c1 G bs m2 e' s' v _ _ HL (count_depth c) D1 H1 H2 H3) as (m3 & HR & W & J1 & J2). eapply out_reach; [apply HR|].
  apply expr_done; [exact J1|cbn [value]; rewrite W; reflexivity|exact J2].
Qed.
Lemma carcdr_run : forall (k : cexpr -> cexpr) (f : V -> W L -> V) a c c1 c' u v1 o1 o2 G bs post m e s, plain a = true -> pre c G (fv a) (letfree a) ->
  (forall m, value L (k CW) m = Some (f (w L m) (mwd L m))) -> comp a c = Some (v1, c1, o1) ->
  (check_cons_nil ;; e <- pop ;; push_ (k e)) c1 = Some (u, c', o2) -> suffix (o1 ++ o2 ++ post) prog -> lay c G bs -> inv G bs m e s -> pend c m ->
  outcome (blocks c) (tags c) G bs (view c m) (Running L (o1 ++ o2 ++ post) m) (n - height a)
    (obind L (eval n a e s) (fun v e s => if islist L v (wd L s) then Some (Normal (f v (wd L s)) e s) else Some Err)) (top c' G bs (depth c) (view c m) post).
Proof.
  intros k f a c c1 c' u v1 o1 o2 G bs post m e s HP HA HK B1 HC HS HL HI HPE. pose proof (keep_refl (letfree a) c) as K.
  apply carcdr_inv in HC as (D0 & -> & ->). right_assoc.
  eapply (use _ n a (IH a)); [exact K|exact HA|apply incl_refl|auto|exact HP|exact B1|exact HS|exact HL|lia|exact HI|exact HPE|apply pres_refl|apply count_depth|lia|].
  intros v e' s' m2 H1 H2 H3. destruct (ctof a c c1 v1 o1 G HP HA B1) as (_ & _ & D1). replace (depth c1 - 1) with (depth c) by lia.
  destruct (store_w c c1 G bs m2 e' s' v _ _ HL (count_depth c) D1 H1 H2 H3) as (m3 & HR & W & J1 & J2). eapply out_reach; [apply HR|]. rewrite one.
  pose proof J1 as (_ & _ & _ & EW). destruct (islist L v (wd L s')) eqn:EI.
  - eapply out_reach; [eapply reach_next; [cbn [step]; rewrite W, EW, EI; reflexivity|apply reach_refl]|].
    apply expr_done; [exact J1|rewrite HK, W, EW; reflexivity|exact J2].
  - cbn [outcome]. eapply reach_next; [cbn [step]; rewrite W, EW, EI; reflexivity|apply reach_refl].
Qed.
Lemma car_sound : forall a, sound (S n) (Car a).
Proof.
  intros a c c' u o G bs post m e s HP HA HC HS HL HI HPE. change (comp (Car a)) with (comp a ;; (check_cons_nil ;; e <- pop ;; push_ (CCar e))) in HC.
  step HC v1 c1 o1 B1. right_assoc. change (S n - height (Car a)) with (n - height a). eapply (carcdr_run CCar (car L)); eauto. Qed.
Lemma cdr_sound : forall a, sound (S n) (Cdr a).
Proof.
  intros a c c' u o G bs post m e s HP HA HC HS HL HI HPE. change (comp (Cdr a)) with (comp a ;; (check_cons_nil ;; e <- pop ;; push_ (CCdr e))) in HC.
  step HC v1 c1 o1 B1. right_assoc. change (S n - height (Cdr a)) with (n - height a). eapply (carcdr_run CCdr (cdr L)); eauto. Qed.

(** *** Calls *)
Definition many (c' : cst) (G : ctx) (bs : list bframe) (D k : nat) (R : nat -> cell) (post : list stmt) (vs : list V) (e : env) (s : state) (c : config) : Prop :=
  exists m, c = Running L post m /\ inv G bs m e s /\ values (view c' m) D k = Some vs /\ pres G D R (view c' m) /\ pend c' m.
Lemma args_run : forall l c c' u o G bs post m e s N, forallb plain l = true -> pre c G (flat_map fv l) (forallb letfree l) ->
  iter comp l c = Some (u, c', o) -> suffix (o ++ post) prog -> lay c G bs -> inv G bs m e s -> pend c m ->
  (forall a, In a l -> N <= n - height a) ->
  outcome (blocks c) (tags c) G bs (view c m) (Running L (o ++ post) m) N (ev_args L (eval n) l e s) (many c' G bs (depth c) (length l) (view c m) post).
Proof.
  induction l as [|a r IHl]; intros c c' u o G bs post m e s N HP HA H HS HL HI HPE HN.
  - cbn [iter ev_args length] in *. known. rewrite app_nil_l in *. eapply out_normal; [apply reach_refl|]. exists m. split; [reflexivity|]. split; [exact HI|]. split; [reflexivity|].
    split; [apply pres_refl|exact HPE].
  - pose proof (keep_refl (forallb letfree (a :: r)) c) as K. cbn [iter ev_args length] in *. step H v1 c1 o1 B1. right_assoc.
    eapply (use _ n a (IH a)); [exact K|exact HA|inc|lfi|bt|exact B1|exact HS|exact HL|lia|exact HI|exact HPE|apply pres_refl|apply count_depth|apply HN; left; reflexivity|].
    intros v e' s' m2 H1 H2 H3. adv a HA K B1 D1. apply suffix_app in HS. assert (HL1 : lay c1 G bs) by (eapply lay_top; eauto).
    assert (PE : pend c1 m2) by (apply (pend_view c1 m2 v); rewrite D1; replace (S (depth c) - 1) with (depth c) by lia; exact H2).
    pose proof (IHl c1 c' u _ G bs post m2 e' s' N ltac:(bt) ltac:(eapply pre_keep; [exact HA|exact K|inc|lfi]) H HS HL1 H1 PE (fun a Ha => HN a (or_intror Ha))) as X.
    rewrite (kp_blocks _ _ _ K), (kp_tags _ _ _ K) in X.
    eapply out_sub with (D := depth c); [exact X|exact H3|eapply lay_offs; [exact HL|apply count_depth]|lia|]. intros vs e2 s2 cc (m3 & -> & J1 & J2 & J3 & J4).
    eapply out_normal; [apply reach_refl|]. exists m3. split; [reflexivity|]. split; [exact J1|]. rewrite D1 in *. split; [|split; [eapply pres_trans; [exact H3|exact J3|lia]|exact J4]].
    cbn [values]. rewrite J2, J3, H2 by (lia || (eapply outside; [exact HL|apply count_depth])). reflexivity.
Qed.
Lemma values_ext : forall k f g b, (forall i, f i = g i) -> values f b k = values g b k.
Proof. induction k as [|k IHk]; intros f g b H; [reflexivity|]. cbn [values]. rewrite H, (IHk f g) by exact H. reflexivity. Qed.
Lemma call_sound : forall f l, sound (S n) (Call f l).
Proof.
  intros f l c c' u o G bs post m e s HP HA HC HS HL HI HPE. change (comp (Call f l)) with (iter comp l ;; call_ f (length l)) in HC.
  step HC v1 c1 o1 B1. apply call_inv in HC as (-> & ->). right_assoc. rewrite one in *.
  destruct (iter_ct special l (proj2 (Forall_forall _ _) (fun x _ => ctof x)) c c1 v1 o1 G HP HA B1) as (K & _ & D1). replace (depth c1 - length l) with (depth c) in * by lia.
  change (eval (S n) (Call f l) e s) with (obind L (ev_args L (eval n) l e s) (fun vs e s => match call L f vs (gl L s) (wd L s) with Some (v, g, w) => Some (Normal v e (mkState L g w)) | None => Some Err end)).
  eapply out_bind.
  - eapply (args_run l c c1 v1 o1 G bs _ m e s (S n - height (Call f l))); try eassumption. intros a HIn. cbn [height]. pose proof (list_max_in _ height l a HIn). lia.
  - lia.
  - intros vs e' s' cc (m2 & -> & H1 & H2 & H3 & H4). pose proof (count_depth c) as CC.
    assert (CC1 : l <> [] -> depth c <= count c1) by (intro NE; destruct l; [congruence|]; cbn [length] in D1; pose proof (depth_count c1); lia).
    assert (HF : inv G bs (flushed c1 m2) e' s' /\ forall i, i < depth c -> loc L (flushed c1 m2) i = view c1 m2 i).
    { split; [|intros i Hi; apply flushed_loc; exact H4]. destruct (flushed_rest c1 m2) as (E1 & _ & _ & E4 & E5 & E6).
      eapply inv_ext; [exact HL|exact H1| |intro i; rewrite E1; reflexivity|assumption..]. intros i Hi. rewrite flushed_loc by exact H4. apply view_low.
      destruct l; [cbn [iter length] in *; known; lia|]. specialize (CC1 ltac:(discriminate)). lia. }
    destruct HF as (HF1 & HF2). eapply out_reach; [apply flush_run; exact H4|]. pose proof HF1 as (_ & _ & EG & EW).
    assert (VS : values (loc L (flushed c1 m2)) (depth c) (length l) = Some vs) by (rewrite <- H2; apply values_ext; intro i; apply flushed_loc; exact H4).
    destruct (call L f vs (gl L s') (wd L s')) as [[[v g] w2]|] eqn:EC.
    + eapply out_reach; [eapply reach_next; [cbn [step]; rewrite VS, EG, EW, EC; reflexivity|apply reach_refl]|]. apply expr_done; [|reflexivity|].
      * eapply inv_move; [exact HL|exact HF1| |reflexivity..]. intros i Hi. cbn [loc clobber]. destruct (Nat.ltb_spec i (depth c)); [reflexivity|lia].
      * intros i Hi Hn. cbn [loc clobber]. destruct (Nat.ltb_spec i (depth c)); [|lia]. rewrite HF2 by exact Hi. apply H3; assumption.
    + cbn [outcome]. eapply reach_next; [cbn [step]; rewrite VS, EG, EW, EC; reflexivity|apply reach_refl].
Qed.

(** *** Escapes *)
Lemma lower_lt : forall k bs, (forall b : bframe, In b bs -> fst b < k) -> lower k bs = bs /\ upper k bs = [].
Proof.
  intros k bs K. induction bs as [|b r IHb]; [split; reflexivity|]. cbn [lower upper filter]. fold (lower k r) (upper k r).
  destruct (Nat.ltb_spec (fst b) k) as [_|H]; [|pose proof (K b (or_introl eq_refl)); lia]. cbn [negb]. destruct IHb as (-> & ->); [intros; apply K; right; assumption|]. split; reflexivity.
Qed.
Lemma unwind_loop_run : forall k bs N m fuel, ord N bs -> chain (loc L m) (bfp L m) bs -> (match bs with [] => True | b :: _ => fst b < fuel end) ->
  exists m', unwind_loop L fuel k m = Some m' /\ loc L m' = loc L m /\ arg L m' = arg L m /\ w L m' = w L m /\ mwd L m' = mwd L m /\
    chain (loc L m') (bfp L m') (lower k bs) /\ mgl L m' = restore (saved (upper k bs)) (mgl L m).
Proof.
  intros k; induction bs as [|[a [x v]] r IHb]; intros N m fuel HO HC HF.
  - cbn [chain] in HC. exists m. split; [destruct fuel; cbn [unwind_loop]; rewrite HC; reflexivity|]. repeat (split; [reflexivity|]). split; [exact HC|reflexivity].
  - pose proof HC as HC0. cbn [chain ord] in HC, HO. destruct HC as (HB & q & C1 & C2 & C3 & C4). destruct HO as (O1 & O2). cbn [fst] in *.
    destruct (Nat.leb_spec k a) as [HK|HK].
    + destruct fuel as [|fuel]; [lia|]. set (m1 := set_bfp L (set_gl L m (upd (mgl L m) x v)) q).
      destruct (IHb a m1 fuel O2) as (m' & E & E1 & E2 & E3 & E4 & E5 & E6); [exact C4|destruct r as [|[b y] r]; [exact I|]; cbn [ord fst] in *; lia|].
      exists m'. split.
      * cbn [unwind_loop]. rewrite HB. destruct (Nat.leb_spec k a); [|lia]. unfold unbind1. rewrite HB, C1, C2, C3. exact E.
      * split; [rewrite E1; reflexivity|]. split; [rewrite E2; reflexivity|]. split; [rewrite E3; reflexivity|]. split; [rewrite E4; reflexivity|].
        cbn [lower upper filter fst]. destruct (Nat.ltb_spec a k); [lia|]. cbn [negb]. split; [exact E5|]. rewrite E6. reflexivity.
    + exists m. split; [destruct fuel; cbn [unwind_loop]; rewrite HB; destruct (Nat.leb_spec k a); (reflexivity || lia)|]. repeat (split; [reflexivity|]).
      match goal with |- context [lower k ?b] => destruct (lower_lt k b) as (-> & ->) end; [|split; [exact HC0|reflexivity]]. intros b [<-|HIn]; [exact HK|]. pose proof (ord_in _ _ _ O2 HIn). lia.
Qed.
Lemma unwind_run : forall c G bs m e s k, lay c G bs -> off c k -> inv G bs m e s ->
  exists m', (forall rest, reach (Running L (unwind_code (need_unwind c k) k ++ rest) m) (Running L rest m')) /\ loc L m' = loc L m /\ arg L m' = arg L m /\ w L m' = w L m /\
    chain (loc L m') (bfp L m') (lower k bs) /\ mgl L m' = restore (saved (upper k bs)) (gl L s) /\ mwd L m' = wd L s.
Proof.
  intros c G bs m e s k HL HO (I1 & I2 & I3 & I4). destruct (need_unwind c k) eqn:NU.
  - destruct (unwind_loop_run k bs (count c) m (match bfp L m with Some a => S a | None => 0 end)) as (m' & E & E1 & E2 & E3 & E4 & E5 & E6); [apply (ly_ord _ _ _ HL)|exact I2| |].
    { destruct bs as [|[a [x v]] r]; [exact I|]. cbn [chain] in I2. destruct I2 as (-> & _). cbn. lia. }
    exists m'. split; [|rewrite E4, E6, I3, I4; auto 10]. intro rest. cbn [unwind_code]. rewrite one. eapply reach_next; [|apply reach_refl]. cbn [step]. unfold unwind. rewrite E. reflexivity.
  - destruct (lower_lt k bs) as (-> & ->).
    { intros b HIn. destruct (ly_unwind _ _ _ HL k b HO HIn) as [(_ & H)|H]; [congruence|lia]. }
    exists m. split; [intro rest; cbn [unwind_code]; rewrite app_nil_l; apply reach_refl|]. auto 10.
Qed.
Lemma in_lower : forall k bs (b : bframe), In b (lower k bs) -> In b bs /\ fst b < k.
Proof. intros k bs b H. apply filter_In in H as (H1 & H2). apply Nat.ltb_lt in H2. auto. Qed.
(** writing at the offset or above does not matter *)
Lemma rel_intro : forall c G bs R m m' e s k, lay c G bs -> off c k -> menv (fun _ => True) G e m -> chain (loc L m) (bfp L m') (lower k bs) -> mgl L m' = restore (saved (upper k bs)) (gl L s) ->
  mwd L m' = wd L s -> (forall i, i < k -> loc L m' i = loc L m i) -> arg L m' = arg L m -> pres G k R (loc L m) -> rel k G bs R m' e s.
Proof.
  intros c G bs R m m' e s k HL HO H1 H2 H3 H4 EL EA HP. split; [|split; [|split; [exact H3|split; [exact H4|]]]].
  - eapply menv_ext; [exact H1|]. intros [|i|i] HIn HB; (split; [exact I|]); cbn [slot below] in *; [reflexivity|rewrite EL by exact HB; reflexivity|rewrite EA; reflexivity].
  - eapply chain_ext; [exact H2|]. intros b i HIn Hi. apply EL. apply in_lower in HIn as (HIn & HB). destruct (ly_unwind _ _ _ HL k b HO HIn) as [(X & _)|X]; lia.
  - intros i Hi Hn. rewrite EL by exact Hi. apply HP; assumption.
Qed.
Lemma return_from_sound : forall b a, sound (S n) (ReturnFrom b a).
Proof.
  intros b a c c' u o G bs post m e s HP HA HC HS HL HI HPE. pose proof (keep_refl (letfree (ReturnFrom b a)) c) as K.
  change (comp (ReturnFrom b a)) with (comp a ;; c <- get ;; match assq b (blocks c) with Some (lb, off) => return_from off (need_unwind c off) ;; jump lb | None => err end) in HC.
  step HC v1 c1 o1 B1. step HC v2 c2 o2 B2. known. destruct (assq b (blocks c1)) as [[lb k]|] eqn:EB; [|known]. step HC v3 c3 o3 B3. known.
  apply return_from_inv in B3 as (D0 & -> & ->). right_assoc. change (flush (pc c1 None (depth c1))) with (@nil stmt) in *. rewrite ?app_nil_l, ?one in *.
  change (eval (S n) (ReturnFrom b a) e s) with (obind L (eval n a e s) (fun v e s => Some (Exit b v e s) : option (out L V))).
  eapply (use _ n a (IH a)); [exact K|exact HA|inc|lfi|bt|exact B1|exact HS|exact HL|lia|exact HI|exact HPE|apply pres_refl|apply count_depth|cbn [height]; lia|].
  intros v e' s' m2 H1 H2 H3. adv a HA K B1 D1. rewrite (kp_blocks _ _ _ K) in EB. assert (NU : need_unwind c1 k = need_unwind c k) by (unfold need_unwind; rewrite (kp_unwinds _ _ _ K); reflexivity). rewrite NU in *.
  assert (HO : off c k) by (exists b, lb; left; exact EB). assert (KD : k <= depth c) by (pose proof (ly_off _ _ _ HL k HO); pose proof (count_depth c); lia).
  destruct (store_w c c1 G bs m2 e' s' v _ _ HL (count_depth c) D1 H1 H2 H3) as (m3 & HR & W & J1 & J2).
  destruct (unwind_run c G bs m3 e' s' k HL HO J1) as (m4 & HR4 & E1 & E2 & E3 & E4 & E5 & E6).
  cbn [outcome]. exists lb, k, (set_loc L m4 k (Cell v)). split; [|split; [exact EB|split; [cbn; rewrite Nat.eqb_refl; reflexivity|]]].
  - eapply reach_trans; [apply HR|]. eapply reach_trans; [apply HR4|]. eapply reach_next; [cbn [step on value]; rewrite E3, W; reflexivity|]. eapply reach_next; [|apply reach_refl]. reflexivity.
  - destruct J1 as (J1 & _). eapply (rel_intro c G bs _ m3); [exact HL|exact HO|exact J1|cbn; rewrite <- E1; exact E4|exact E5|exact E6| |exact E2|eapply pres_le; [exact J2|exact KD]].
    intros i Hi. cbn. destruct (Nat.eqb_spec i k); [lia|]. rewrite E1. reflexivity.
Qed.
Lemma value_def : forall E m m', loc L m' = loc L m -> value L E m <> None -> value L E m' <> None.
Proof.
  intros E m m' H. induction E as [|k|k|v|x|a IHa|a IHa b IHb|a IHa|a IHa|p]; cbn [value]; try discriminate.
  - rewrite H. auto.
  - intro X. assert (Y : value L a m <> None) by (intro Z; rewrite Z in X; congruence). specialize (IHa Y). destruct (value L a m'); [discriminate|congruence].
  - intro X. assert (Y : value L a m <> None) by (intro Z; rewrite Z in X; congruence). assert (Y2 : value L b m <> None) by (intro Z; rewrite Z in X; destruct (value L a m); congruence).
    specialize (IHa Y). specialize (IHb Y2). destruct (value L a m'); [|congruence]. destruct (value L b m'); [discriminate|congruence].
  - intro X. assert (Y : value L a m <> None) by (intro Z; rewrite Z in X; congruence). specialize (IHa Y). destruct (value L a m'); [discriminate|congruence].
  - intro X. assert (Y : value L a m <> None) by (intro Z; rewrite Z in X; congruence). specialize (IHa Y). destruct (value L a m'); [discriminate|congruence].
Qed.
Lemma go_sound : forall t, sound (S n) (Go t).
Proof.
  intros t c c' u o G bs post m e s HP HA HC HS HL HI HPE.
  change (comp (Go t)) with (c <- get ;; match assq t (tags c) with Some (lb, off) => go_tag off (need_unwind c off) ;; jump lb | None => err end) in HC.
  step HC v2 c2 o2 B2. known. destruct (assq t (tags c)) as [[lb k]|] eqn:EB; [|known]. step HC v3 c3 o3 B3. known.
  apply go_inv in B3 as (-> & ->). right_assoc. rewrite one in *.
  assert (HO : off c k) by (exists t, lb; right; exact EB). pose proof (ly_off _ _ _ HL k HO) as KD.
  destruct (unwind_run c G bs m e s k HL HO HI) as (m4 & HR4 & E1 & E2 & E3 & E4 & E5 & E6). set (c5 := pc c (push c) (S (count c))) in *.
  assert (P5 : pend c5 m4) by (unfold pend in *; cbn [push c5 pc]; destruct (push c); [eapply value_def; eauto|exact I]).
  change (eval (S n) (Go t) e s) with (Some (Jump t e s) : option (out L V)). cbn [outcome]. destruct (flushed_rest c5 m4) as (F1 & _ & _ & F4 & F5 & F6).
  exists lb, k, (flushed c5 m4). split; [|split; [exact EB|]].
  - eapply reach_reach1; [apply HR4|]. eapply reach_reach1; [apply flush_run; exact P5|]. apply reach_step. reflexivity.
  - destruct HI as (J1 & _). apply (rel_intro c G bs _ m); [exact HL|exact HO|exact J1|rewrite F4, <- E1; exact E4|rewrite F5; exact E5|rewrite F6; exact E6| |rewrite F1; exact E2|].
    + intros i Hi. rewrite flushed_loc by exact P5. rewrite view_low by (cbn; lia). rewrite E1. reflexivity.
    + intros i Hi Hn. symmetry. apply view_low. lia.
Qed.

(** *** block *)
Lemma out_catch_bind : forall A bl tg G bs R c0 N N1 b lb D (o : option (out L A)) Q1 (k : A -> env -> state -> option (out L V)) Q,
  outcome ((b, (lb, D)) :: bl) tg G bs R c0 N1 o Q1 -> N <= N1 ->
  (forall a e s c, Q1 a e s c -> outcome bl tg G bs R c N (catch_block L b (k a e s)) Q) ->
  (forall v e s m, loc L m D = Cell v -> rel D G bs R m e s -> outcome bl tg G bs R (goto lb m) N (Some (Normal v e s)) Q) ->
  outcome bl tg G bs R c0 N (catch_block L b (obind L o k)) Q.
Proof.
  intros A bl tg G bs R c0 N N1 b lb D [[a e s|b' v e s|t e s|]|] Q1 k Q H HN HK HX; cbn [outcome obind] in H |- *.
  - destruct H as (c & H1 & H2). eapply out_reach; [exact H1|]. apply HK. exact H2.
  - destruct H as (lb' & k' & m & H1 & H2 & H3 & H4). cbn [catch_block]. cbn [assq] in H2. rewrite Nat.eqb_sym in H2. destruct (Nat.eqb b' b).
    + injection H2 as <- <-. eapply out_reach; [exact H1|]. apply HX; assumption.
    + cbn [outcome]. exists lb', k', m. auto.
  - exact H.
  - exact H.
  - destruct H as (j & code & m & H1 & H2). exists j, code, m. split; [lia|exact H2].
Qed.
Definition in_block (c : cst) (b lb k : nat) : cst := mkCst None (depth c) k (ids c) (scope c) ((b, (lb, depth c)) :: blocks c) (tags c) (unwinds c) (frames c).
Lemma block_lay : forall c G bs b lb k, lay c G bs -> lay (in_block c b lb k) G bs.
Proof.
  intros c G bs b lb k [A1 A2 A3 A4 A5 A6 A7]. pose proof (count_depth c) as CC.
  assert (EO : forall j, off (in_block c b lb k) j -> j = depth c \/ off c j).
  { intros j (x & l & [H|H]); cbn [in_block blocks tags] in H; [|right; exists x, l; auto]. cbn [assq] in H. destruct (Nat.eqb b x); [injection H as <- <-; auto|right; exists x, l; auto]. }
  split; auto; cbn [count in_block].
  - intros j H. specialize (A1 j H). lia.
  - eapply ord_le; eauto.
  - intros j H. destruct (EO j H) as [->|H2]; [lia|]. specialize (A6 j H2). lia.
  - intros j f H HIn. destruct (EO j H) as [->|H2]; [right; pose proof (ord_in _ _ _ A4 HIn); lia|]. apply (A7 j f H2 HIn).
Qed.
Lemma block_sound : forall b l, sound (S n) (Block b l).
Proof.
  intros b l c c' u o G bs post m e s HP HA HC HS HL HI HPE.
  change (comp (Block b l)) with (lb <- enter_block b ;; progn comp l ;; label lb ;; leave_block) in HC.
  step HC v1 c1 o1 B1. apply enter_block_inv in B1 as (-> & -> & ->). fold (in_block c b (S (lab c)) (S (lab c))) in HC. set (c1 := in_block c b (S (lab c)) (S (lab c))) in *. step HC v2 c2 o2 B2.
  step HC v3 c3 o3 B3. known. apply leave_block_inv in HC as (-> & ->). right_assoc. rewrite one in *.
  eapply out_reach; [apply flush_run; exact HPE|]. apply suffix_app in HS. set (m1 := flushed c m).
  assert (A1 : pre c1 G (flat_map fv l) (forallb letfree l)) by (eapply pre_ext; [exact HA|reflexivity..]).
  assert (L1 : lay c1 G bs) by (apply block_lay; exact HL). assert (I1 : inv G bs m1 e s) by (apply inv_flush; assumption).
  assert (E1 : forall D, pres G D (view c m) (view c1 m1)) by (intros D i _ _; rewrite view_flat by reflexivity; apply flushed_loc; exact HPE).
  assert (HN : forall a, In a l -> S n - height (Block b l) <= n - height a) by (intros a HIn; cbn [height]; pose proof (list_max_in _ height l a HIn); lia).
  pose proof (progn_run l c1 c2 v2 o2 G bs _ m1 e s _ HP A1 B2 HS L1 I1 I HN) as H. change (depth c1) with (depth c + 0) in H. rewrite Nat.add_0_r in H.
  apply out_ref with (R := view c m) (D := depth c) in H; [|apply E1|eapply lay_offs; [exact L1|cbn; lia]].
  destruct (progn_ct special l (proj2 (Forall_forall _ _) (fun x _ => ctof x)) c1 c2 v2 o2 G HP A1 B2) as (K2 & _ & D2).
  assert (D2' : depth c2 = S (depth c)) by (rewrite D2; change (depth c1) with (depth c + 0); lia). pose proof (lay_top _ _ _ _ _ L1 K2 D2) as L2.
  change (eval (S n) (Block b l) e s) with (catch_block L b (ev_progn L (eval n) l e s)). rewrite <- (obind_ret _ (ev_progn L (eval n) l e s)).
  change (blocks c1) with ((b, (S (lab c), depth c)) :: blocks c) in H. change (tags c1) with (tags c) in H.
  eapply out_catch_bind; [exact H|apply Nat.le_refl|..].
  - intros v e' s' cc (m2 & -> & H1 & H2 & H3). cbn [catch_block].
    assert (P3 : pres G (depth c) (view c m) (view c2 m2)) by (eapply pres_trans; [apply (E1 (depth c))|exact H3|lia]). apply label_end; try assumption. reflexivity.
  - intros v e' s' m2 H1 H2. apply suffix_app in HS. apply suffix_app in HS. rewrite (goto_here _ _ _ HS).
    destruct (rel_inv c G bs _ m2 e' s' (depth c) HL (count_depth c) H2) as (J1 & J2). apply done; [exact J1|rewrite view_flat by reflexivity; exact H1|apply pres_view; [exact J2|reflexivity]].
Qed.

(** *** Conditions *)
Lemma decided_intro : forall bl tg tl nl G bs D R post m v e s N, inv G bs m e s -> pres G D R (loc L m) ->
  outcome bl tg G bs R (branch tl nl v post m) N (Some (Normal v e s)) (decided tl nl G bs D R post).
Proof. intros. eapply out_normal; [apply reach_refl|]. exists m. auto. Qed.
Lemma con_run : forall x, sound (S n) x -> (forall tl nl, evcon comp x tl nl = (comp x ;; conditional_jump tl nl)) -> csound (S n) x.
Proof.
  intros x HX HE tl nl c c' u o G bs post m e s HT HP HA HC HS HL HI HPE. pose proof (keep_refl (letfree x) c) as K. rewrite HE in HC. step HC v1 c1 o1 B1. right_assoc.
  assert (X : 0 < depth c1 /\ exists t, o0 = [t] /\ forall m v, view c1 m (depth c1 - 1) = Cell v -> CompModel.step L prog (t :: post) m = branch tl nl v post m).
  { unfold conditional_jump in HC. destruct nl as [l|].
    - unfold if_nil in HC. step HC v2 c2 o2 B2. known. apply pop_inv in B2 as (D2 & -> & -> & ->). split; [exact D2|]. eexists. split; [reflexivity|].
      intros m3 v HV. cbn [CompModel.step]. unfold on. rewrite (top_value c1 m3 v D2 HV). reflexivity.
    - destruct tl as [l|]; [|discriminate]. unfold if_t in HC. step HC v2 c2 o2 B2. known. apply pop_inv in B2 as (D2 & -> & -> & ->). split; [exact D2|]. eexists. split; [reflexivity|].
      intros m3 v HV. cbn [CompModel.step]. unfold on. rewrite (top_value c1 m3 v D2 HV). reflexivity. }
  destruct X as (D0 & t & -> & HT2). rewrite one in *.
  eapply (use_last (S n) x HX); [exact K|exact HA|apply incl_refl|auto|exact HP|exact B1|exact HS|exact HL|lia|exact HI|exact HPE|apply pres_refl|apply count_depth|lia|].
  intros v e' s' m2 H1 H2 H3. destruct (ctof x c c1 v1 o1 G HP HA B1) as (_ & _ & D1).
  eapply out_reach; [eapply reach_next; [apply (HT2 m2 v); replace (depth c1 - 1) with (depth c) by lia; exact H2|apply reach_refl]|].
  apply decided_intro; [exact H1|]. eapply pres_loc; [exact H3|apply top_room; exact D1].
Qed.
Lemma is_csound : forall p a, csound (S n) (Is p a).
Proof.
  intros p a tl nl c c' u o G bs post m e s HT HP HA HC HS HL HI HPE. pose proof (keep_refl (letfree (Is p a)) c) as K.
  change (evcon comp (Is p a) tl nl) with (comp a ;; match nl, tl with Some l, _ => if_not_type p l | None, Some l => if_type p l | None, None => err end) in HC.
  step HC v1 c1 o1 B1. right_assoc.
  assert (X : exists t, o0 = store_code CW c1 ++ [t] /\ forall m, CompModel.step L prog (t :: post) m = branch tl nl (truth (is L p (w L m))) post m).
  { destruct nl as [l|].
    - unfold if_not_type in HC. step HC v2 c2 o2 B2. known. apply store_inv in B2 as (D2 & -> & ->). eexists. split; [reflexivity|]. intro m3. cbn [CompModel.step branch]. destruct (is L p (w L m3)); reflexivity.
    - destruct tl as [l|]; [|discriminate]. unfold if_type in HC. step HC v2 c2 o2 B2. known. apply store_inv in B2 as (D2 & -> & ->). eexists. split; [reflexivity|]. intro m3. cbn [CompModel.step branch]. destruct (is L p (w L m3)); reflexivity. }
  destruct X as (t & -> & HT2). right_assoc. rewrite one in *.
  change (eval (S n) (Is p a) e s) with (obind L (eval n a e s) (fun v e s => Some (Normal (truth (is L p v)) e s))).
  eapply (use _ n a (IH a)); [exact K|exact HA|inc|lfi|bt|exact B1|exact HS|exact HL|lia|exact HI|exact HPE|apply pres_refl|apply count_depth|cbn [height]; lia|].
  intros v e' s' m2 H1 H2 H3. adv a HA K B1 D1.
  destruct (store_w c c1 G bs m2 e' s' v _ _ HL (count_depth c) D1 H1 H2 H3) as (m3 & HR & W & J1 & J2). eapply out_reach; [apply HR|].
  eapply out_reach; [eapply reach_next; [apply HT2|apply reach_refl]|]. rewrite W. apply decided_intro; assumption.
Qed.
Lemma eq_csound : forall a b, csound (S n) (Eq a b).
Proof.
  intros a b tl nl c c' u o G bs post m e s HT HP HA HC HS HL HI HPE. pose proof (keep_refl (letfree (Eq a b)) c) as K.
  change (evcon comp (Eq a b) tl nl) with (comp a ;; comp b ;; match nl, tl with Some l, _ => if_neq l | None, Some l => if_eq l | None, None => err end) in HC.
  step HC v1 c1 o1 B1. step HC v2 c2 o2 B2. right_assoc.
  match type of HC with _ = Some (_, _, ?oo) => assert (X : 1 < depth c2 /\ exists t, oo = [t] /\ forall m y x, value L (topexpr c2) m = Some y -> loc L m (depth c2 - 2) = Cell x -> CompModel.step L prog (t :: post) m = branch tl nl (truth (V_eqb x y)) post m) end.
  { destruct nl as [l|].
    - unfold if_neq in HC. step HC e1 c3 o4 B3. step HC e2 c4 o5 B4. known. destruct (pop2_inv _ _ _ _ _ _ _ B3 B4) as (D2 & -> & -> & -> & -> & ->). split; [exact D2|]. eexists. split; [reflexivity|].
      intros m3 y x HY HX. cbn [CompModel.step branch]. unfold on. rewrite HY. cbn [value]. rewrite HX, V_eqb_sym. destruct (V_eqb x y); reflexivity.
    - destruct tl as [l|]; [|discriminate]. unfold if_eq in HC. step HC e1 c3 o4 B3. step HC e2 c4 o5 B4. known. destruct (pop2_inv _ _ _ _ _ _ _ B3 B4) as (D2 & -> & -> & -> & -> & ->). split; [exact D2|]. eexists. split; [reflexivity|].
      intros m3 y x HY HX. cbn [CompModel.step branch]. unfold on. rewrite HY. cbn [value]. rewrite HX, V_eqb_sym. destruct (V_eqb x y); reflexivity. }
  destruct X as (D0 & t & -> & HT2). rewrite one in *.
  change (eval (S n) (Eq a b) e s) with (obind L (eval n a e s) (fun u e s => obind L (eval n b e s) (fun v e s => Some (Normal (truth (V_eqb u v)) e s)))).
  assert (HN : S n - height (Eq a b) <= n - height a /\ S n - height (Eq a b) <= n - height b) by (cbn [height]; lia). destruct HN as (N1 & N2).
  eapply (use _ n a (IH a)); [exact K|exact HA|inc|lfi|bt|exact B1|exact HS|exact HL|lia|exact HI|exact HPE|apply pres_refl|apply count_depth|exact N1|].
  intros v e' s' m2 H1 H2 H3. adv a HA K B1 D1. apply suffix_app in HS. pose proof (count_depth c) as CC. pose proof (depth_count c1) as C1.
  eapply (use _ n b (IH b)) with (D := depth c); [exact K|exact HA|inc|lfi|bt|exact B2|exact HS|exact HL|lia|exact H1|apply (pend_view c1 m2 v); rewrite D1; replace (S (depth c) - 1) with (depth c) by lia; exact H2|exact H3|exact CC|exact N2|].
  intros v3 e3 s3 m3 J1 J2 J3. adv b HA K B2 D2. pose proof (depth_count c2) as C2.
  eapply out_reach.
  { eapply reach_next; [apply (HT2 m3 v3 v)|apply reach_refl].
    - apply top_value; [lia|]. replace (depth c2 - 1) with (depth c1) by lia. exact J2.
    - replace (depth c2 - 2) with (depth c) by lia. rewrite <- (view_low c2) by lia. rewrite J3 by (lia || (eapply outside; [exact HL|lia])). exact H2. }
  apply decided_intro; [exact J1|]. eapply pres_loc with (c := c2); [|lia]. eapply pres_trans; [exact H3|exact J3|lia].
Qed.
Lemma branch_null : forall tl nl v post m, tl = None \/ nl = None -> branch nl tl v post m = branch tl nl (truth (V_eqb v NIL)) post m.
Proof. intros [t|] [l|] v post m [H|H]; try discriminate; cbn [branch]; destruct (V_eqb v NIL); reflexivity. Qed.
Lemma null_csound : forall a, csound (S n) (Null a).
Proof.
  intros a tl nl c c' u o G bs post m e s HT HP HA HC HS HL HI HPE. change (evcon comp (Null a) tl nl) with (evcon comp a nl tl) in HC.
  change (eval (S n) (Null a) e s) with (obind L (eval n a e s) (fun v e s => Some (Normal (truth (V_eqb v NIL)) e s))).
  eapply out_bind; [eapply (IHc a nl tl); try eassumption; tauto|cbn [height]; lia|]. intros v e' s' cc (m2 & -> & H1 & H2).
  rewrite branch_null by exact HT. apply decided_intro; assumption.
Qed.
Lemma all_and_run : forall l lb c c' u o G bs post m e s N, l <> [] -> forallb plain l = true -> pre c G (flat_map fv l) (forallb letfree l) ->
  evall comp None (Some lb) l c = Some (u, c', o) -> suffix (o ++ post) prog -> lay c G bs -> inv G bs m e s -> pend c m ->
  (forall a, In a l -> N <= n - height a) ->
  outcome (blocks c) (tags c) G bs (view c m) (Running L (o ++ post) m) N (ev_and L (eval n) l e s) (decided None (Some lb) G bs (depth c) (view c m) post).
Proof.
  induction l as [|a r IHl]; intros lb c c' u o G bs post m e s N NE HP HA H HS HL HI HPE HN; [congruence|].
  pose proof (keep_refl (forallb letfree (a :: r)) c) as K. change (evall comp None (Some lb) (a :: r)) with (evcon comp a None (Some lb) ;; evall comp None (Some lb) r) in H. step H v1 c1 o1 B1. right_assoc.
  destruct r as [|b r].
  - cbn [evall] in H. known. rewrite app_nil_l in *. cbn [ev_and]. rewrite <- (obind_ret _ (eval n a e s)).
    eapply (useC _ n a (IHc a)); [left; reflexivity|exact K|exact HA|inc|lfi|bt|exact B1|exact HS|exact HL|lia|exact HI|exact HPE|apply pres_refl|apply count_depth|apply HN; left; reflexivity|].
    intros v e' s' m2 H1 H2. apply decided_intro; assumption.
  - change (ev_and L (eval n) (a :: b :: r) e s) with (obind L (eval n a e s) (fun v e s => if V_eqb v NIL then Some (Normal NIL e s) else ev_and L (eval n) (b :: r) e s)). set (br := b :: r) in *.
    eapply (useC _ n a (IHc a)); [left; reflexivity|exact K|exact HA|inc|lfi|bt|exact B1|exact HS|exact HL|lia|exact HI|exact HPE|apply pres_refl|apply count_depth|apply HN; left; reflexivity|].
    intros v e' s' m2 H1 H2. advC a HA K B1 P1 D1. apply suffix_app in HS. cbn [branch]. destruct (V_eqb v NIL) eqn:EV.
    + eapply out_normal; [apply reach_refl|]. exists m2. auto.
    + assert (D1' : depth c1 = depth c) by (unfold depth at 1, pending; rewrite P1; lia). assert (R1 : pres G (depth c) (view c m) (view c1 m2)) by (apply pres_view; [exact H2|exact P1]). pose proof (count_depth c) as CC.
      assert (L1 : lay c1 G bs) by (eapply lay_later; [exact HL|exact K|lia]).
      pose proof (IHl lb c1 c' u _ G bs post m2 e' s' N ltac:(discriminate) ltac:(bt) ltac:(eapply pre_keep; [exact HA|exact K|inc|lfi]) H HS L1 H1 ltac:(unfold pend; rewrite P1; exact I) (fun a Ha => HN a (or_intror Ha))) as X.
      rewrite (kp_blocks _ _ _ K), (kp_tags _ _ _ K), D1' in X. eapply out_weak; [eapply out_ref; [exact X|exact R1|eapply lay_offs; [exact HL|exact CC]]|lia|].
      intros v4 e4 s4 cc (m4 & -> & J1 & J2). exists m4. split; [reflexivity|]. split; [exact J1|]. eapply pres_trans; [exact R1|exact J2|lia].
Qed.
Lemma all_or_run : forall l lb c c' u o G bs post m e s N, l <> [] -> forallb plain l = true -> pre c G (flat_map fv l) (forallb letfree l) ->
  evall comp (Some lb) None l c = Some (u, c', o) -> suffix (o ++ post) prog -> lay c G bs -> inv G bs m e s -> pend c m ->
  (forall a, In a l -> N <= n - height a) ->
  outcome (blocks c) (tags c) G bs (view c m) (Running L (o ++ post) m) N (ev_or L (eval n) l e s) (decided (Some lb) None G bs (depth c) (view c m) post).
Proof.
  induction l as [|a r IHl]; intros lb c c' u o G bs post m e s N NE HP HA H HS HL HI HPE HN; [congruence|].
  pose proof (keep_refl (forallb letfree (a :: r)) c) as K. change (evall comp (Some lb) None (a :: r)) with (evcon comp a (Some lb) None ;; evall comp (Some lb) None r) in H. step H v1 c1 o1 B1. right_assoc.
  destruct r as [|b r].
  - cbn [evall] in H. known. rewrite app_nil_l in *. cbn [ev_or]. rewrite <- (obind_ret _ (eval n a e s)).
    eapply (useC _ n a (IHc a)); [right; reflexivity|exact K|exact HA|inc|lfi|bt|exact B1|exact HS|exact HL|lia|exact HI|exact HPE|apply pres_refl|apply count_depth|apply HN; left; reflexivity|].
    intros v e' s' m2 H1 H2. apply decided_intro; assumption.
  - change (ev_or L (eval n) (a :: b :: r) e s) with (obind L (eval n a e s) (fun v e s => if V_eqb v NIL then ev_or L (eval n) (b :: r) e s else Some (Normal v e s))). set (br := b :: r) in *.
    eapply (useC _ n a (IHc a)); [right; reflexivity|exact K|exact HA|inc|lfi|bt|exact B1|exact HS|exact HL|lia|exact HI|exact HPE|apply pres_refl|apply count_depth|apply HN; left; reflexivity|].
    intros v e' s' m2 H1 H2. advC a HA K B1 P1 D1. apply suffix_app in HS. cbn [branch]. destruct (V_eqb v NIL) eqn:EV.
    + assert (D1' : depth c1 = depth c) by (unfold depth at 1, pending; rewrite P1; lia). assert (R1 : pres G (depth c) (view c m) (view c1 m2)) by (apply pres_view; [exact H2|exact P1]). pose proof (count_depth c) as CC.
      assert (L1 : lay c1 G bs) by (eapply lay_later; [exact HL|exact K|lia]).
      pose proof (IHl lb c1 c' u _ G bs post m2 e' s' N ltac:(discriminate) ltac:(bt) ltac:(eapply pre_keep; [exact HA|exact K|inc|lfi]) H HS L1 H1 ltac:(unfold pend; rewrite P1; exact I) (fun a Ha => HN a (or_intror Ha))) as X.
      rewrite (kp_blocks _ _ _ K), (kp_tags _ _ _ K), D1' in X. eapply out_weak; [eapply out_ref; [exact X|exact R1|eapply lay_offs; [exact HL|exact CC]]|lia|].
      intros v4 e4 s4 cc (m4 & -> & J1 & J2). exists m4. split; [reflexivity|]. split; [exact J1|]. eapply pres_trans; [exact R1|exact J2|lia].
    + eapply out_normal; [apply reach_refl|]. exists m2. split; [cbn [branch]; rewrite EV; reflexivity|auto].
Qed.
Lemma list_need : forall l : list exp, forall k, k = S (list_max (map height l)) -> forall a, In a l -> S n - k <= n - height a.
Proof. intros l k -> a HIn. pose proof (list_max_in _ height l a HIn). lia. Qed.
Lemma and_csound : forall a r, csound (S n) (And (a :: r)).
Proof.
  intros a r tl nl c c' u o G bs post m e s HT HP HA H HS HL HI HPE. set (l := a :: r) in *. assert (NE : l <> []) by discriminate.
  change (evcon comp (And l) tl nl) with
    (lb <- (match nl with Some x => ret x | None => genlabel end) ;; evall comp None (Some lb) l ;;
     match nl, tl with Some _, _ => ret tt | None, Some t => jump t ;; label lb | None, None => err end) in H.
  change (eval (S n) (And l) e s) with (ev_and L (eval n) l e s). step H lb c1 o1 B1. destruct nl as [x|].
  - known. step H v2 c2 o2 B2. known. right_assoc. destruct HT as [->|HT]; [|discriminate]. eapply all_and_run; try eassumption. apply list_need. reflexivity.
  - known. step H v2 c2 o2 B2. destruct tl as [t|]; [|known]. step H v3 c3 o3 B3. known. known. right_assoc.
    destruct (evall_ct special l None (Some (S (lab c))) (proj2 (Forall_forall _ _) (fun x _ => ctcof x)) (with_lab c (S (lab c))) c2 v2 o2 G HP (pre_ext _ _ _ _ _ _ HA eq_refl eq_refl) B2) as (_ & _ & D2 & P2). specialize (P2 NE).
    change (flush (flat c2)) with (@nil stmt) in *. unfold flush in *. rewrite P2 in *. rewrite ?app_nil_l, ?one in *.
    rewrite <- (obind_ret _ (ev_and L (eval n) l e s)). eapply out_bind.
    + eapply (all_and_run l (S (lab c)) (with_lab c (S (lab c))) c2 v2 o2 G bs _ m e s (S n - height (And l))); try eassumption; [apply (lay_ext c); [exact HL|reflexivity..|cbn; lia]|apply list_need; reflexivity].
    + lia.
    + intros v e' s' cc (m2 & -> & H1 & H2). cbn [branch]. eapply out_normal; [|exists m2; split; [reflexivity|auto]]. cbn [branch]. apply suffix_app in HS. apply suffix_cons in HS. destruct (V_eqb v NIL).
      * rewrite (goto_here _ _ _ HS). apply reach_refl.
      * eapply reach_next; [reflexivity|apply reach_refl].
Qed.
Lemma or_csound : forall a r, csound (S n) (Or (a :: r)).
Proof.
  intros a r tl nl c c' u o G bs post m e s HT HP HA H HS HL HI HPE. set (l := a :: r) in *. assert (NE : l <> []) by discriminate.
  change (evcon comp (Or l) tl nl) with
    (lb <- (match tl with Some x => ret x | None => genlabel end) ;; evall comp (Some lb) None l ;;
     match tl, nl with Some _, _ => ret tt | None, Some t => jump t ;; label lb | None, None => err end) in H.
  change (eval (S n) (Or l) e s) with (ev_or L (eval n) l e s). step H lb c1 o1 B1. destruct tl as [x|].
  - known. step H v2 c2 o2 B2. known. right_assoc. destruct HT as [HT| ->]; [discriminate|]. eapply all_or_run; try eassumption. apply list_need. reflexivity.
  - known. step H v2 c2 o2 B2. destruct nl as [t|]; [|known]. step H v3 c3 o3 B3. known. known. right_assoc.
    destruct (evall_ct special l (Some (S (lab c))) None (proj2 (Forall_forall _ _) (fun x _ => ctcof x)) (with_lab c (S (lab c))) c2 v2 o2 G HP (pre_ext _ _ _ _ _ _ HA eq_refl eq_refl) B2) as (_ & _ & D2 & P2). specialize (P2 NE).
    change (flush (flat c2)) with (@nil stmt) in *. unfold flush in *. rewrite P2 in *. rewrite ?app_nil_l, ?one in *.
    rewrite <- (obind_ret _ (ev_or L (eval n) l e s)). eapply out_bind.
    + eapply (all_or_run l (S (lab c)) (with_lab c (S (lab c))) c2 v2 o2 G bs _ m e s (S n - height (Or l))); try eassumption; [apply (lay_ext c); [exact HL|reflexivity..|cbn; lia]|apply list_need; reflexivity].
    + lia.
    + intros v e' s' cc (m2 & -> & H1 & H2). cbn [branch]. eapply out_normal; [|exists m2; split; [reflexivity|auto]]. cbn [branch]. apply suffix_app in HS. apply suffix_cons in HS. destruct (V_eqb v NIL).
      * eapply reach_next; [reflexivity|apply reach_refl].
      * rewrite (goto_here _ _ _ HS). apply reach_refl.
Qed.
Lemma all_csound : forall x, sound (S n) x -> csound (S n) x.
Proof.
  intros x HX. destruct x; try (apply con_run; [exact HX|reflexivity]).
  - destruct l; [apply con_run; [exact HX|reflexivity]|apply and_csound].
  - destruct l; [apply con_run; [exact HX|reflexivity]|apply or_csound].
  - apply null_csound.
  - apply eq_csound.
  - apply is_csound.
Qed.

(** *** let and let*: leaving the scope *)
Lemma menv_tail : forall P Gp G e m, menv P (Gp ++ G) e m -> menv P G (skipn (length Gp) e) m.
Proof.
  intros P Gp G; induction Gp as [|p Gp IHG]; intros e m H; [exact H|]. rewrite <- app_comm_cons in H. inversion H as [|? q ? e0 Hq HF]; subst. cbn [length skipn]. apply IHG. exact HF.
Qed.
Lemma restore_app : forall a b g, restore (a ++ b) g = restore b (restore a g).
Proof. intros a b g. unfold restore. apply fold_left_app. Qed.
Lemma lower_app : forall k a b, lower k (a ++ b) = lower k a ++ lower k b. Proof. intros. apply filter_app. Qed.
Lemma upper_app : forall k a b, upper k (a ++ b) = upper k a ++ upper k b. Proof. intros. apply filter_app. Qed.
Lemma upper_ge : forall k bs, (forall b : bframe, In b bs -> k <= fst b) -> lower k bs = [] /\ upper k bs = bs.
Proof.
  intros k bs K. induction bs as [|b r IHb]; [split; reflexivity|]. cbn [lower upper filter]. fold (lower k r) (upper k r).
  destruct (Nat.ltb_spec (fst b) k) as [H|_]; [pose proof (K b (or_introl eq_refl)); lia|]. cbn [negb]. destruct IHb as (-> & ->); [intros; apply K; right; assumption|]. split; reflexivity.
Qed.
Definition over (D : nat) (Gp : ctx) : Prop := forall k, In (InLocal k) (locals Gp) -> D <= k.
Definition above (D : nat) (Gp : ctx) : Prop := forall i, In i (locals Gp) -> exists k, i = InLocal k /\ D <= k.
Definition framed (D : nat) (bsp : list bframe) : Prop := forall b, In b bsp -> D <= fst b.
Lemma above_over : forall D Gp, above D Gp -> over D Gp.
Proof. intros D Gp H k Hk. destruct (H _ Hk) as (j & E & Hj). injection E as <-. exact Hj. Qed.
Lemma above_out : forall D Gp G i, over D Gp -> i < D -> ~ In (InLocal i) (locals G) -> ~ In (InLocal i) (locals (Gp ++ G)).
Proof.
  intros D Gp G i HA Hi Hn H. unfold locals in H. rewrite map_app, in_app_iff in H. destruct H as [H|H]; [|contradiction]. specialize (HA _ H). lia.
Qed.
Lemma pres_out : forall D Gp G R R' k, over D Gp -> k <= D -> pres (Gp ++ G) k R R' -> pres G k R R'.
Proof. intros D Gp G R R' k HA HK HP i Hi Hn. apply HP; [exact Hi|]. eapply above_out; eauto. lia. Qed.
Lemma rel_leave : forall k D Gp G bsp bs R R1 m e s, over D Gp -> framed D bsp -> k <= D -> pres G D R R1 -> rel k (Gp ++ G) (bsp ++ bs) R1 m e s ->
  rel k G bs R m (skipn (length Gp) e) (mkState L (restore (saved bsp) (gl L s)) (wd L s)).
Proof.
  intros k D Gp G bsp bs R R1 m e s HA HB HK HP (H1 & H2 & H3 & H4 & H5).
  destruct (upper_ge k bsp) as (E1 & E2); [intros b Hb; specialize (HB b Hb); lia|]. rewrite lower_app, E1, app_nil_l in H2. rewrite upper_app, E2 in H3. unfold saved in H3. rewrite map_app, restore_app in H3.
  split; [apply menv_tail; exact H1|]. split; [exact H2|]. split; [exact H3|]. split; [exact H4|].
  eapply pres_trans; [eapply pres_le; [exact HP|exact HK]|eapply pres_out; [exact HA|exact HK|exact H5]|lia].
Qed.
Lemma out_leave_bind : forall A B bl tg Gp G bsp bs R R1 D c0 N N1 (o : option (out L A)) Q1 (k : A -> env -> state -> option (out L B)) Q,
  outcome bl tg (Gp ++ G) (bsp ++ bs) R1 c0 N1 o Q1 -> N <= N1 -> over D Gp -> framed D bsp -> offs bl tg D -> pres G D R R1 ->
  (forall a e s c, Q1 a e s c -> outcome bl tg G bs R c N (leave L (skipn (length Gp)) (restore (saved bsp)) (k a e s)) Q) ->
  outcome bl tg G bs R c0 N (leave L (skipn (length Gp)) (restore (saved bsp)) (obind L o k)) Q.
Proof.
  intros A B bl tg Gp G bsp bs R R1 D c0 N N1 [[a e s|b v e s|t e s|]|] Q1 k Q H HN HA HB HO HP HK; cbn [outcome obind] in H |- *.
  - destruct H as (c & H1 & H2). eapply out_reach; [exact H1|]. apply HK. exact H2.
  - destruct H as (lb & j & m & H1 & H2 & H3 & H4). cbn [leave outcome]. exists lb, j, m. repeat (split; [assumption|]). eapply rel_leave; eauto.
  - destruct H as (lb & j & m & H1 & H2 & H3). cbn [leave outcome]. exists lb, j, m. repeat (split; [assumption|]). eapply rel_leave; eauto.
  - exact H.
  - destruct H as (j & code & m & H1 & H2). exists j, code, m. split; [lia|exact H2].
Qed.
Lemma leave_leave : forall A f1 f2 f3 g1 g2 g3 (o : option (out L A)), (forall e, f1 (f2 e) = f3 e) -> (forall g, g1 (g2 g) = g3 g) ->
  leave L f1 g1 (leave L f2 g2 o) = leave L f3 g3 o.
Proof. intros A f1 f2 f3 g1 g2 g3 [[a e s|b v e s|t e s|]|] Hf Hg; cbn [leave gl wd]; rewrite ?Hf, ?Hg; reflexivity. Qed.

(** *** The frame on the stack *)
Lemma nodup_join : forall (a b : list ident), NoDup a -> NoDup b -> (forall i, In i a -> ~ In i b) -> NoDup (a ++ b).
Proof.
  induction a as [|x a IHa]; intros b H1 H2 H; [exact H2|]. inversion H1 as [|? ? N1 N2]; subst. rewrite <- app_comm_cons. constructor.
  - rewrite in_app_iff. intros [K|K]; [contradiction|]. exact (H x (or_introl eq_refl) K).
  - apply IHa; [exact N2|exact H2|]. intros i Hi. apply H. right; exact Hi.
Qed.
Lemma lay_lexs : forall c c' G Gp bs D, lay c G bs -> count c <= D -> above D Gp -> NoDup (locals Gp) -> (forall k, In (InLocal k) (locals Gp) -> k < count c') ->
  blocks c' = blocks c -> tags c' = tags c -> unwinds c' = unwinds c -> count c <= count c' -> lay c' (Gp ++ G) bs.
Proof.
  intros c c' G Gp bs D HL HD HA HN HK EB ET EU HC. pose proof (lay_ext c c' G bs HL EB ET EU HC) as [A1 A2 A3 A4 A5 A6 A7].
  assert (SP : forall i, In i (locals (Gp ++ G)) <-> In i (locals Gp) \/ In i (locals G)) by (intro i; unfold locals; rewrite map_app, in_app_iff; tauto).
  split; auto.
  - intros k H. apply SP in H as [H|H]; auto.
  - intro H. apply SP in H as [H|H]; [destruct (HA _ H) as (k & E & _); discriminate|contradiction].
  - unfold locals. rewrite map_app. apply nodup_join; [exact HN|exact A3|]. intros i H H'. destruct (HA i H) as (k & -> & Hk). pose proof (ly_local _ _ _ HL k H'). lia.
  - intros b k Hb H. apply SP in H as [H|H]; [|auto]. right. destruct (HA _ H) as (j & E & Hj). injection E as <-. pose proof (ord_in _ _ _ (ly_ord _ _ _ HL) Hb). lia.
Qed.
Lemma lay_spe : forall c c' G bs a x v u, lay c G bs -> count c <= a -> a + 3 <= count c' -> blocks c' = blocks c -> tags c' = tags c -> unwinds c' = u :: unwinds c ->
  (forall k, off c k -> k <= u) -> (forall k, off c k -> k <= a) -> lay c' G ((a, (x, v)) :: bs).
Proof.
  intros c c' G bs a x v u [A1 A2 A3 A4 A5 A6 A7] HA HC EB ET EU HU HO.
  assert (EO : forall k, off c' k -> off c k) by (intros k; unfold off; rewrite EB, ET; auto).
  assert (NU : forall k, off c' k -> need_unwind c' k = true) by (intros k Hk; unfold need_unwind; rewrite EU; apply Nat.leb_le; auto).
  split; auto.
  - intros k H. specialize (A1 k H). lia.
  - cbn [ord fst]. split; [lia|]. eapply ord_le; eauto.
  - intros b k [<-|Hb] Hk; cbn [fst]; [left; specialize (A1 k Hk); lia|auto].
  - intros k H. specialize (A6 k (EO k H)). lia.
  - intros k b H [<-|Hb]; cbn [fst]; [left; auto|]. destruct (A7 k b (EO k H) Hb) as [(X & _)|X]; auto.
Qed.
Lemma unbindx_run : forall bsp bs m, chain (loc L m) (bfp L m) (bsp ++ bs) ->
  exists m', unbindx L (length bsp) m = Some m' /\ loc L m' = loc L m /\ arg L m' = arg L m /\ w L m' = w L m /\ mwd L m' = mwd L m /\
    chain (loc L m') (bfp L m') bs /\ mgl L m' = restore (saved bsp) (mgl L m).
Proof.
  induction bsp as [|[a [x v]] r IHb]; intros bs m H.
  - exists m. split; [reflexivity|]. repeat (split; [reflexivity|]). split; [exact H|reflexivity].
  - rewrite <- app_comm_cons in H. cbn [chain] in H. destruct H as (HB & q & C1 & C2 & C3 & C4). set (m1 := set_bfp L (set_gl L m (upd (mgl L m) x v)) q).
    destruct (IHb bs m1 C4) as (m' & E & E1 & E2 & E3 & E4 & E5 & E6). exists m'. split.
    + cbn [length unbindx]. unfold unbind1. rewrite HB, C1, C2, C3. exact E.
    + split; [rewrite E1; reflexivity|]. split; [rewrite E2; reflexivity|]. split; [rewrite E3; reflexivity|]. split; [rewrite E4; reflexivity|]. split; [exact E5|]. rewrite E6. reflexivity.
Qed.
Lemma bind_run : forall c G bs m e s a x v, lay c G bs -> count c <= a -> inv G bs m e s -> w L m = v ->
  inv G ((a, (x, gl L s x)) :: bs) (bindspecial L m x a) e (mkState L (upd (gl L s) x v) (wd L s)) /\ (forall i, i < a -> loc L (bindspecial L m x a) i = loc L m i).
Proof.
  intros c G bs m e s a x v HL HA (H1 & H2 & H3 & H4) HW.
  assert (EL : forall i, i < a -> loc L (bindspecial L m x a) i = loc L m i).
  { intros i Hi. cbn. destruct (Nat.eqb_spec i (a + 2)); [lia|]. destruct (Nat.eqb_spec i (a + 1)); [lia|]. destruct (Nat.eqb_spec i a); [lia|reflexivity]. }
  split; [|exact EL]. split; [|split; [|split]].
  - eapply menv_ext; [exact H1|]. intros [|i|i] HIn _; (split; [exact I|]); cbn [slot]; [reflexivity| |reflexivity]. rewrite EL; [reflexivity|]. pose proof (ly_local _ _ _ HL i HIn). lia.
  - cbn [chain]. split; [reflexivity|]. exists (bfp L m). cbn. rewrite H3.
    destruct (Nat.eqb_spec a (a + 2)); [lia|]. destruct (Nat.eqb_spec a (a + 1)); [lia|]. rewrite Nat.eqb_refl. split; [reflexivity|].
    destruct (Nat.eqb_spec (a + 1) (a + 2)); [lia|]. rewrite Nat.eqb_refl. split; [reflexivity|]. rewrite Nat.eqb_refl. split; [reflexivity|].
    eapply chain_ext; [exact H2|]. intros b i Hb Hi. pose proof (ord_in _ _ _ (ly_ord _ _ _ HL) Hb). transitivity (loc L (bindspecial L m x a) i); [cbn; rewrite H3; reflexivity|apply EL; lia].
  - cbn. rewrite H3, HW. reflexivity.
  - exact H4.
Qed.

(** *** The body, and the end *)
Lemma body_run : forall c c1 c' G bs Gp bsp body u u0 o f bnd k l m1 e1 s1 R post N,
  building special (ids c) G (frames c) c1 f Gp bnd k l -> scope c1 = length (ids c) ->
  (forall x, In x (flat_map fv body) -> In x bnd \/ good special (ids c) G (length (ids c) - 1) x) -> forallb plain body = true ->
  (progn comp body ;; set_unwinds u0 ;; delete_frame) c1 = Some (u, c', o) -> suffix (o ++ post) prog ->
  lay c G bs -> lay c1 (Gp ++ G) (bsp ++ bs) -> inv (Gp ++ G) (bsp ++ bs) m1 e1 s1 -> pend c1 m1 -> blocks c1 = blocks c -> tags c1 = tags c ->
  length bsp = k -> depth c1 = depth c + 3 * k + l -> over (depth c) Gp -> framed (depth c) bsp -> pres G (depth c) R (view c1 m1) -> (forall a, In a body -> N <= n - height a) ->
  outcome (blocks c) (tags c) G bs R (Running L (o ++ post) m1) N (leave L (skipn (length Gp)) (restore (saved bsp)) (ev_progn L (eval n) body e1 s1)) (top c' G bs (depth c) R post).
Proof.
  intros c c1 c' G bs Gp bsp body u u0 o f bnd k l m1 e1 s1 R post N HB HSC HFV HP HC HS HL HL1 HI HPE EB ET HK HD HA HF HR HN.
  destruct (let_end special _ _ _ _ _ _ _ _ _ _ _ _ _ _ HB HSC HFV (proj2 (Forall_forall _ _) (fun x _ => ctof x)) HP HC) as (v1 & c2 & o2 & B2 & -> & (K2 & _ & D2) & A1 & ->). right_assoc.
  pose proof (progn_run body c1 c2 v1 o2 (Gp ++ G) (bsp ++ bs) _ m1 e1 s1 N HP A1 B2 HS HL1 HI HPE HN) as H. rewrite EB, ET in H.
  rewrite <- (obind_ret _ (ev_progn L (eval n) body e1 s1)). eapply out_leave_bind; [exact H|apply Nat.le_refl|exact HA|exact HF|eapply lay_offs; [exact HL|apply count_depth]|exact HR|].
  intros v e2 s2 cc (m2 & -> & H1 & H2 & H3). cbn [leave].
  assert (HV : view c2 m2 (depth c2 - 1) = Cell v) by (rewrite D2; replace (S (depth c1) - 1) with (depth c1) by lia; exact H2). pose proof (pend_view _ _ _ HV) as PE.
  assert (C2 : depth c1 <= count c2) by (pose proof (depth_count c2); lia).
  assert (X : exists m3, (forall q, reach (Running L (delete_code k c2 ++ q) m2) (Running L q m3)) /\ (forall i, i < depth c1 -> loc L m3 i = loc L m2 i) /\ (forall i, arg L m3 i = arg L m2 i) /\ w L m3 = v /\
    mwd L m3 = mwd L m2 /\ chain (loc L m3) (bfp L m3) bs /\ mgl L m3 = restore (saved bsp) (mgl L m2)).
  { destruct H1 as (_ & HCH & _). unfold delete_code. destruct (flushed_rest c2 m2) as (F1 & _ & _ & F4 & F5 & F6). destruct (Nat.ltb_spec 0 k) as [Kp|Kz].
    - assert (HCF : chain (loc L (flushed c2 m2)) (bfp L (flushed c2 m2)) (bsp ++ bs)).
      { rewrite F4. eapply chain_ext; [exact HCH|]. intros b i Hb Hi. rewrite flushed_loc by exact PE. apply view_low.
        pose proof (ord_in _ _ _ (ly_ord _ _ _ HL1) Hb). pose proof (count_depth c1). lia. }
      destruct (unbindx_run bsp bs (flushed c2 m2) HCF) as (m3 & E & E1 & E2 & E3 & E4 & E5 & E6).
      assert (HV3 : view (flat c2) m3 (depth (flat c2) - 1) = Cell v) by (rewrite depth_flat, view_flat by reflexivity; rewrite E1, flushed_loc by exact PE; exact HV).
      destruct (store_run (flat c2) CW m3 v I) as (m4 & HR4 & W1 & W2 & W3 & W4 & W5 & W6); [rewrite depth_flat; lia|exact HV3|].
      exists m4. split; [|split; [|split; [|split; [|split; [|split]]]]].
      + intro q. rewrite <- !app_assoc. eapply reach_trans; [apply flush_run; exact PE|]. rewrite one. eapply reach_next; [cbn [CompModel.step]; rewrite <- HK, E; reflexivity|]. apply HR4.
      + intros i Hi. rewrite W1, E1, flushed_loc by exact PE. apply view_low. lia.
      + intro i. rewrite W2, E2, F1. reflexivity.
      + exact W3.
      + congruence.
      + rewrite W4. eapply chain_ext; [exact E5|]. intros b i Hb Hi. apply W1.
      + congruence.
    - destruct bsp as [|b r]; [|cbn in HK; lia]. destruct (store_run c2 CW m2 v I ltac:(lia) HV) as (m4 & HR4 & W1 & W2 & W3 & W4 & W5 & W6).
      exists m4. split; [exact HR4|]. split; [intros; apply W1|]. split; [exact W2|]. split; [exact W3|]. split; [exact W6|]. split; [|exact W5].
      rewrite W4. eapply chain_ext; [exact HCH|]. intros b i Hb Hi. apply W1. }
  destruct X as (m3 & HR3 & X1 & X2 & X3 & X4 & X5 & X6). destruct H1 as (J1 & J2 & J3 & J4). eapply out_reach; [apply HR3|]. cbn [outcome]. exists (Running L post m3). split; [apply reach_refl|].
  pose proof (count_depth c) as CD. pose proof (count_depth c1) as CD1.
  exists m3. split; [reflexivity|]. split; [|split].
  - split; [|split; [exact X5|split]].
    + apply menv_tail in J1. eapply menv_ext; [exact J1|]. intros [|i|i] HIn _; (split; [exact I|]); cbn [slot]; [reflexivity| |rewrite X2; reflexivity].
      rewrite X1; [reflexivity|]. pose proof (ly_local _ _ _ HL i HIn). lia.
    + cbn [gl]. rewrite X6, J3. reflexivity.
    + cbn [wd]. rewrite X4. exact J4.
  - unfold view. cbn [push count]. replace (depth c1 - (3 * k + l)) with (depth c) by lia. rewrite Nat.eqb_refl. cbn [value]. rewrite X3. reflexivity.
  - intros i Hi Hn. rewrite view_low by (cbn [count]; lia). rewrite X1, <- (view_low c2 m2 i) by lia. rewrite <- (HR i Hi Hn). apply H3; [lia|]. eapply above_out; eauto.
Qed.

(** *** let* *)
Lemma building_pre : forall is G fr c f Gp bnd k l X lf, building special is G fr c f Gp bnd k l -> scope c = length is ->
  (forall x, In x X -> In x bnd \/ good special is G (length is - 1) x) -> pre c (Gp ++ G) X lf.
Proof.
  intros is G fr c f Gp bnd k l X lf [HI HO HN HF HK] HSC HX.
  assert (GI : forall x, In x X -> good special (f :: is) (Gp ++ G) (length is) x) by (intros x Hx; eapply good_inner; eauto).
  unfold CompStatic.pre, agr, level. rewrite HI, HSC. cbn [length]. replace (S (length is) - 1) with (length is) by lia.
  split; [split; [exact GI|right; exact GI]|]. split; [exact HO|discriminate].
Qed.
Lemma over_cons : forall D Gp x k, over D Gp -> D <= k -> over D ((x, InLocal k) :: Gp).
Proof. intros D Gp x k H HK j [E|Hj]; [injection E as <-; exact HK|auto]. Qed.
Lemma above_cons : forall D Gp x k, above D Gp -> D <= k -> above D ((x, InLocal k) :: Gp).
Proof. intros D Gp x k H HK i [<-|Hi]; [exists k; auto|auto]. Qed.
Lemma framed_cons : forall D bsp a p, framed D bsp -> D <= a -> framed D ((a, p) :: bsp).
Proof. intros D bsp a p H HK b [<-|Hb]; [exact HK|auto]. Qed.
Lemma skipn_tl : forall (A : Type) k (l : list A), skipn k (tl l) = skipn (S k) l.
Proof. intros A k [|x l]; [destruct k; reflexivity|reflexivity]. Qed.

Lemma two : forall (p q : stmt) r, [p; q] ++ r = p :: q :: r. Proof. reflexivity. Qed.
Lemma leave_id : forall A (o : option (out L A)), leave L (skipn 0) (restore (saved [])) o = o.
Proof. intros A [[a e [g w0]|b v e [g w0]|t e [g w0]|]|]; reflexivity. Qed.
Lemma letstar_run : forall body b c c1 c2 c' G bs Gp bsp u1 u u0 o1 o f bnd k l m e s R post N,
  building special (ids c) G (frames c) c1 f Gp bnd k l -> scope c1 = length (ids c) -> forallb (fun p => plain (snd p)) b = true ->
  (forall x, In x (star_fv body b) -> In x bnd \/ good special (ids c) G (length (ids c) - 1) x) -> forallb plain body = true ->
  letstar_bind special comp b c1 = Some (u1, c2, o1) -> (progn comp body ;; set_unwinds u0 ;; delete_frame) c2 = Some (u, c', o) -> suffix (o1 ++ o ++ post) prog ->
  lay c G bs -> lay c1 (Gp ++ G) (bsp ++ bs) -> inv (Gp ++ G) (bsp ++ bs) m e s -> pend c1 m -> blocks c1 = blocks c -> tags c1 = tags c ->
  length bsp = k -> depth c1 = depth c + 3 * k + l -> over (depth c) Gp -> framed (depth c) bsp -> pres G (depth c) R (view c1 m) ->
  (forall p, In p b -> N <= n - height (snd p)) -> (forall a, In a body -> N <= n - height a) ->
  outcome (blocks c) (tags c) G bs R (Running L (o1 ++ o ++ post) m) N (leave L (skipn (length Gp)) (restore (saved bsp)) (ev_letstar L (eval n) b body e s)) (top c' G bs (depth c) R post).
Proof.
  intros body b; induction b as [|[x a] r IHb]; intros c c1 c2 c' G bs Gp bsp u1 u u0 o1 o f bnd k l m e s R post N HB HSC HPb HFV HP HC1 HC HS HL HL1 HI HPE EB ET HK HD HA HF HR HNb HN.
  - cbn [letstar_bind ev_letstar] in *. known. rewrite ?app_nil_l in *. eapply body_run; eauto.
  - cbn [forallb snd] in HPb. apply andb_true_iff in HPb as (HPa & HPb). cbn [star_fv snd fst] in HFV. fold (star_fv body) in HFV.
    assert (HGa : forall y, In y (fv a) -> good special (f :: ids c) (Gp ++ G) (length (ids c)) y).
    { intros y Hy. eapply good_inner; [exact (bu_fok _ _ _ _ _ _ _ _ _ _ HB)|exact (bu_nonempty _ _ _ _ _ _ _ _ _ _ HB)|]. apply HFV, in_or_app; left; exact Hy. }
    assert (PA : pre c1 (Gp ++ G) (fv a) (letfree a)) by (eapply building_pre; [exact HB|exact HSC|intros y Hy; apply HFV, in_or_app; left; exact Hy]).
    destruct (letstar_step special _ _ _ _ _ _ _ _ _ _ _ _ _ _ _ HB HSC HGa (ctof a) HPa HC1) as (v1 & c3 & oa & c4 & ob & oc & B1 & -> & (K1 & _ & D1) & H2 & X). cbv zeta in X.
    assert (HG2 : forall y, In y (star_fv body r) -> In y (x :: bnd) \/ good special (ids c) G (length (ids c) - 1) y).
    { intros y Hy. destruct (Nat.eq_dec y x) as [->|NE]; [left; left; reflexivity|].
      destruct (HFV y) as [K|K]; [apply in_or_app; right; apply in_minus; split; [exact Hy|intros [E|[]]; congruence]|left; right; exact K|right; exact K]. }
    cbn [ev_letstar]. rewrite <- !app_assoc in HS |- *.
    pose proof (IH a c1 c3 v1 oa (Gp ++ G) (bsp ++ bs) _ m e s HPa PA B1 HS HL1 HI HPE) as H. rewrite EB, ET in H.
    eapply out_leave_bind; [exact H|apply (HNb (x, a)); left; reflexivity|exact HA|exact HF|eapply lay_offs; [exact HL|apply count_depth]|exact HR|].
    intros v e' s' cc (m2 & -> & H1 & HV & H3). apply suffix_app in HS.
    assert (HV' : view c3 m2 (depth c3 - 1) = Cell v) by (rewrite D1; replace (S (depth c1) - 1) with (depth c1) by lia; exact HV). pose proof (pend_view _ _ _ HV') as PE.
    pose proof (count_depth c1) as CC. pose proof (depth_count c3) as CD. pose proof (count_depth c) as CE.
    assert (HL3 : lay c3 (Gp ++ G) (bsp ++ bs)) by (eapply lay_later; [exact HL1|exact K1|lia]).
    eapply out_reach; [apply flush_run; exact PE|]. apply suffix_app in HS.
    pose proof (inv_flush _ _ _ _ _ _ HL3 H1 PE) as HI3. set (m3 := flushed c3 m2) in *.
    assert (HR3 : pres G (depth c) R (loc L m3)).
    { intros i Hi Hn. unfold m3. rewrite flushed_loc by exact PE. rewrite <- (HR i Hi Hn). apply H3; [lia|]. eapply above_out; eauto. }
    assert (EB3 : blocks c3 = blocks c) by (rewrite <- EB; apply (kp_blocks _ _ _ K1)). assert (ET3 : tags c3 = tags c) by (rewrite <- ET; apply (kp_tags _ _ _ K1)).
    assert (EU3 : unwinds c3 = unwinds c1) by apply (kp_unwinds _ _ _ K1).
    assert (LV : loc L m3 (depth c1) = Cell v) by (unfold m3; rewrite flushed_loc by exact PE; exact HV).
    rewrite D1 in X. replace (S (depth c1) - 1) with (depth c1) in X by lia.
    change (CompLang.special L x) with (special x). destruct (special x) eqn:SX; destruct X as (-> & HB4 & EC).
    + rewrite (leave_leave _ _ _ (skipn (length Gp)) _ _ (restore (saved ((depth c1, (x, gl L s' x)) :: bsp)))) by reflexivity.
      destruct (bind_run c1 (Gp ++ G) (bsp ++ bs) (set_w L m3 v) e' s' (depth c1) x v) as (HI4 & EL4); [exact HL1|lia| |reflexivity|].
      { eapply inv_ext; [exact HL1|exact HI3|reflexivity..]. }
      apply suffix_app in HS. rewrite two. eapply out_reach; [eapply reach_next; [cbn [CompModel.step]; unfold on; cbn [value]; rewrite LV; reflexivity|]; eapply reach_next; [reflexivity|apply reach_refl]|].
      eapply (IHb c c4 c2 c' G bs Gp ((depth c1, (x, gl L s' x)) :: bsp)); [exact HB4|rewrite EC; exact HSC|exact HPb|exact HG2|exact HP|exact H2|exact HC|exact HS|exact HL| |exact HI4|rewrite EC; exact I|rewrite EC; exact EB3|rewrite EC; exact ET3|cbn [length]; lia| |exact HA|apply framed_cons; [exact HF|lia]| |intros p Hp; apply HNb; right; exact Hp|exact HN].
      * rewrite EC. eapply (lay_spe c1 _ _ _ _ _ _ (depth c1)); [exact HL1|exact CC|cbn [count]; lia|cbn [blocks]; congruence|cbn [tags]; congruence|cbn [unwinds]; congruence| |]; intros j Hj; pose proof (ly_off _ _ _ HL1 j Hj); lia.
      * rewrite EC. unfold depth at 1, pending. cbn [count push]. lia.
      * rewrite EC. intros i Hi Hn. rewrite view_flat by reflexivity. rewrite EL4 by lia. exact (HR3 i Hi Hn).
    + rewrite (leave_leave _ _ _ (skipn (S (length Gp))) _ _ (restore (saved bsp))); [|apply skipn_tl|reflexivity]. rewrite app_nil_l in HS |- *.
      eapply (IHb c c4 c2 c' G bs ((x, InLocal (depth c1)) :: Gp) bsp); [exact HB4|rewrite EC; exact HSC|exact HPb|exact HG2|exact HP|exact H2|exact HC|exact HS|exact HL| | |rewrite EC; exact I|rewrite EC; exact EB3|rewrite EC; exact ET3|exact HK| |apply over_cons; [exact HA|lia]|exact HF| |intros p Hp; apply HNb; right; exact Hp|exact HN].
      * rewrite EC. apply (lay_lexs c1 _ (Gp ++ G) [(x, InLocal (depth c1))] (bsp ++ bs) (depth c1)); [exact HL1|exact CC|apply above_cons; [intros i []|lia]|repeat constructor; intros []| |cbn [blocks]; congruence|cbn [tags]; congruence|cbn [unwinds]; congruence|cbn [count]; lia].
        intros j [E|[]]. injection E as <-. cbn [count]. lia.
      * destruct HI3 as (J1 & J2). split; [|exact J2]. constructor; [|exact J1]. split; [reflexivity|]. intros _. cbn [snd slot]. rewrite LV. reflexivity.
      * rewrite EC. unfold depth at 1, pending. cbn [count push]. lia.
      * rewrite EC. intros i Hi Hn. rewrite view_flat by reflexivity. exact (HR3 i Hi Hn).
Qed.
Lemma letstar_sound : forall b l, sound (S n) (LetStar b l).
Proof.
  intros b l c c' u o G bs post m e s HP HA HC HS HL HI HPE. cbn [CompLang.plain] in HP. apply andb_true_iff in HP as (HP1 & HP2).
  change (comp (LetStar b l)) with (c0 <- get ;; create_frame ;; letstar_bind special comp b ;; progn comp l ;; set_unwinds (unwinds c0) ;; delete_frame) in HC.
  step HC v1 c1 o1 B1. known. step HC v2 c2 o2 B2. apply create_inv in B2 as (-> & ->). pose proof (created special _ _ _ _ HA) as HB. step HC v3 c3 o3 B3. rewrite !app_nil_l in *.
  assert (HG : forall x, In x (star_fv l b) -> In x [] \/ good special (ids c) G (length (ids c) - 1) x) by (intros x Hx; right; eapply good_level; eauto).
  rewrite <- app_assoc in HS |- *. change (eval (S n) (LetStar b l) e s) with (ev_letstar L (eval n) b l e s). rewrite <- (leave_id _ (ev_letstar L (eval n) b l e s)).
  eapply (letstar_run l b c _ c3 c' G bs [] []); [exact HB|reflexivity|exact HP1|exact HG|exact HP2|exact B3|exact HC|exact HS|exact HL|eapply lay_ext; [exact HL|reflexivity..]|exact HI|exact HPE|reflexivity|reflexivity|reflexivity| |intros i []|intros i []|apply pres_refl| |].
  - change (depth c = depth c + 3 * 0 + 0). lia.
  - intros [x a] Hp. cbn [height snd]. pose proof (list_max_in _ (fun p => height (snd p)) b _ Hp) as H. cbn [snd] in H. lia.
  - intros a Ha. cbn [height]. pose proof (list_max_in _ height l a Ha). lia.
Qed.

(** *** let: the initial values *)
Lemma cons1 : forall (A : Type) (s : A) k, [s] ++ k = s :: k. Proof. reflexivity. Qed.
Definition slots (D : nat) (b : list (nat * exp)) : list (nat * nat) := combine (map fst b) (seq D (length b)).
Definition lexG (D : nat) (b : list (nat * exp)) : ctx := rev (map (fun p => (fst p, InLocal (snd p))) (filter (fun p => negb (special (fst p))) (slots D b))).
Definition speS (D : nat) (b : list (nat * exp)) : list (nat * nat) := rev (filter (fun p => special (fst p)) (slots D b)).
Lemma let_inits_slots : forall is G fr b seen f Gp bnd k l c sp sp' c' o,
  building special is G fr c f Gp bnd k l -> inits_plain special b seen = true -> (forall x, In x bnd -> special x = true \/ In x seen) ->
  (forall x, In x (flat_map (fun p => fv (snd p)) b) -> good special is G (length is - 1) x) -> let_inits special comp b sp c = Some (sp', c', o) ->
  exists f', building special is G fr c' f' (lexG (depth c) b ++ Gp) (rev (lexnames special b) ++ bnd) k (l + length b) /\
    sp' = speS (depth c) b ++ sp /\ depth c' = depth c + length b /\ blocks c' = blocks c /\ tags c' = tags c /\ unwinds c' = unwinds c /\
    (b = [] /\ c' = c \/ push c' = None).
Proof.
  intros is G fr b; induction b as [|[x a] r IHb]; intros seen f Gp bnd k l c sp sp' c' o HB HP HS HG H.
  - cbn [let_inits] in H. known. exists f. cbn [length]. rewrite !Nat.add_0_r. repeat (split; [try assumption; reflexivity|]). left; auto.
  - cbn [inits_plain snd fst] in HP. fold (inits_plain special) in HP.
    apply andb_true_iff in HP as (HP1 & HP3). apply andb_true_iff in HP1 as (HP1 & HP2). cbn [flat_map snd] in HG.
    destruct (let_init_step special _ _ _ _ _ _ _ _ _ _ _ _ _ _ _ _ _ HB HP2 HS (fun x Hx => HG x (in_or_app _ _ _ (or_introl Hx))) (ctof a) HP1 H)
      as (u & c1 & o1 & c2 & o2 & B1 & -> & (K1 & F1 & D1) & X). cbv zeta in X. change (depth (with_scope c (length (ids c) - 1 - 1))) with (depth c) in D1.
    rewrite D1 in X. replace (S (depth c) - 1) with (depth c) in X by lia.
    pose proof (kp_blocks _ _ _ K1) as EB. pose proof (kp_tags _ _ _ K1) as ET. pose proof (kp_unwinds _ _ _ K1) as EU. cbn [blocks tags unwinds with_scope] in EB, ET, EU.
    assert (ESP : speS (depth c) ((x, a) :: r) = speS (S (depth c)) r ++ (if special x then [(x, depth c)] else [])).
    { unfold speS, slots. cbn [map fst length seq combine filter]. destruct (special x); cbn [rev]; rewrite ?app_nil_r; reflexivity. }
    assert (ELX : lexG (depth c) ((x, a) :: r) = lexG (S (depth c)) r ++ (if special x then [] else [(x, InLocal (depth c))])).
    { unfold lexG, slots. cbn [map fst length seq combine filter]. destruct (special x); cbn [rev negb map fst snd]; rewrite ?app_nil_r; reflexivity. }
    assert (ELN : lexnames special ((x, a) :: r) = (if special x then [] else [x]) ++ lexnames special r).
    { unfold lexnames. cbn [map fst filter]. destruct (special x); cbn [negb]; rewrite ?app_nil_l; reflexivity. }
    rewrite ESP, ELX, ELN. destruct (special x) eqn:SX; destruct X as (H2 & HB2 & EC); assert (D2 : depth c2 = S (depth c)) by (rewrite EC; unfold depth at 1, pending; cbn [count push]; lia).
    + assert (HS2 : forall y, In y bnd -> special y = true \/ In y (x :: seen)) by (intros y Hy; destruct (HS y Hy); [left|right; right]; assumption).
      destruct (IHb _ _ _ _ _ _ _ _ _ _ _ HB2 HP3 HS2 (fun y Hy => HG y (in_or_app _ _ _ (or_intror Hy))) H2) as (f' & HB' & ES & ED & E1 & E2 & E3 & E4).
      rewrite D2 in *. exists f'. cbn [length rev]. rewrite ?app_nil_r, ?app_nil_l, <- ?app_assoc, ?(cons1 (nat*nat)). rewrite EC in E1, E2, E3. cbn [blocks tags unwinds] in E1, E2, E3.
      split; [replace (l + S (length r)) with (S l + length r) by lia; exact HB'|]. split; [exact ES|]. split; [lia|]. split; [congruence|]. split; [congruence|]. split; [congruence|]. right.
      destruct E4 as [(_ & ->)|E4]; [rewrite EC; reflexivity|exact E4].
    + assert (HS2 : forall y, In y (x :: bnd) -> special y = true \/ In y (x :: seen)) by (intros y [<-|Hy]; [right; left; reflexivity|]; destruct (HS y Hy); [left|right; right]; assumption).
      destruct (IHb _ _ _ _ _ _ _ _ _ _ _ HB2 HP3 HS2 (fun y Hy => HG y (in_or_app _ _ _ (or_intror Hy))) H2) as (f' & HB' & ES & ED & E1 & E2 & E3 & E4).
      rewrite D2 in *. exists f'. cbn [length]. rewrite app_nil_r, (cons1 nat). cbn [rev]. rewrite <- !app_assoc. rewrite EC in E1, E2, E3. cbn [blocks tags unwinds] in E1, E2, E3.
      split; [replace (l + S (length r)) with (S l + length r) by lia; exact HB'|]. split; [exact ES|]. split; [lia|]. split; [congruence|]. split; [congruence|]. split; [congruence|]. right.
      destruct E4 as [(_ & ->)|E4]; [rewrite EC; reflexivity|exact E4].
Qed.
Lemma let_inits_run : forall is G fr bs b seen f Gp bnd k l c sp sp' c' o m e s N post,
  building special is G fr c f Gp bnd k l -> inits_plain special b seen = true -> (forall x, In x bnd -> special x = true \/ In x seen) ->
  (forall x, In x (flat_map (fun p => fv (snd p)) b) -> good special is G (length is - 1) x) -> let_inits special comp b sp c = Some (sp', c', o) ->
  suffix (o ++ post) prog -> lay c G bs -> inv G bs m e s -> pend c m -> (forall p, In p b -> N <= n - height (snd p)) ->
  outcome (blocks c) (tags c) G bs (view c m) (Running L (o ++ post) m) N (ev_args L (eval n) (map snd b) e s) (many c' G bs (depth c) (length b) (view c m) post).
Proof.
  intros is G fr bs b; induction b as [|[x a] r IHb]; intros seen f Gp bnd k l c sp sp' c' o m e s N post HB HP HS HG H HSU HL HI HPE HN.
  - cbn [let_inits ev_args length map] in *. known. rewrite app_nil_l in *. eapply out_normal; [apply reach_refl|]. exists m. split; [reflexivity|]. split; [exact HI|]. split; [reflexivity|].
    split; [apply pres_refl|exact HPE].
  - cbn [inits_plain snd fst] in HP. fold (inits_plain special) in HP.
    apply andb_true_iff in HP as (HP1 & HP3). apply andb_true_iff in HP1 as (HP1 & HP2). cbn [flat_map snd] in HG.
    pose proof (init_pre special _ _ _ _ _ _ _ _ _ _ _ HB HP2 HS (fun x Hx => HG x (in_or_app _ _ _ (or_introl Hx)))) as PA.
    destruct (let_init_step special _ _ _ _ _ _ _ _ _ _ _ _ _ _ _ _ _ HB HP2 HS (fun x Hx => HG x (in_or_app _ _ _ (or_introl Hx))) (ctof a) HP1 H)
      as (u & c1 & o1 & c2 & o2 & B1 & -> & (K1 & F1 & D1) & X). cbv zeta in X. change (depth (with_scope c (length (ids c) - 1 - 1))) with (depth c) in D1.
    set (cs := with_scope c (length (ids c) - 1 - 1)) in *. rewrite D1 in X. replace (S (depth c) - 1) with (depth c) in X by lia.
    assert (HLs : lay cs G bs) by (eapply lay_ext; [exact HL|reflexivity..]). rewrite <- !app_assoc in HSU |- *. cbn [ev_args map snd].
    pose proof (IH a cs c1 u o1 G bs _ m e s HP1 PA B1 HSU HLs HI HPE) as HX. change (blocks cs) with (blocks c) in HX. change (tags cs) with (tags c) in HX. change (view cs m) with (view c m) in HX. change (depth cs) with (depth c) in HX.
    eapply out_bind; [exact HX|apply (HN (x, a)); left; reflexivity|]. intros v e' s' cc (m2 & -> & H1 & HV & H3). apply suffix_app in HSU.
    assert (HV' : view c1 m2 (depth c1 - 1) = Cell v) by (rewrite D1; replace (S (depth c) - 1) with (depth c) by lia; exact HV). pose proof (pend_view _ _ _ HV') as PE.
    pose proof (count_depth c) as CC. pose proof (depth_count c1) as CD.
    assert (HL1 : lay c1 G bs) by (eapply lay_later; [exact HLs|exact K1|change (count cs) with (count c); lia]).
    eapply out_reach; [apply flush_run; exact PE|]. apply suffix_app in HSU. pose proof (inv_flush _ _ _ _ _ _ HL1 H1 PE) as HI2. set (m3 := flushed c1 m2) in *.
    assert (EV : forall i, loc L m3 i = view c1 m2 i) by (intro i; apply flushed_loc; exact PE).
    pose proof (kp_blocks _ _ _ K1) as EB. pose proof (kp_tags _ _ _ K1) as ET. pose proof (kp_unwinds _ _ _ K1) as EU. change (blocks cs) with (blocks c) in EB. change (tags cs) with (tags c) in ET.
    assert (REST : forall sp2 f2 Gp2 bnd2, let_inits special comp r sp2 c2 = Some (sp', c', o2) -> building special is G fr c2 f2 Gp2 bnd2 k (S l) -> (forall y, In y bnd2 -> special y = true \/ In y (x :: seen)) ->
      c2 = mkCst None (S (depth c)) (lab c1) (ids c2) (scope c1) (blocks c1) (tags c1) (unwinds c1) (frames c2) ->
      outcome (blocks c) (tags c) G bs (view c m) (Running L (o2 ++ post) m3) N (obind L (ev_args L (eval n) (map snd r) e' s') (fun vs e s => Some (Normal (v :: vs) e s))) (many c' G bs (depth c) (S (length r)) (view c m) post)).
    { intros sp2 f2 Gp2 bnd2 H2 HB2 HS2 EC. assert (D2 : depth c2 = S (depth c)) by (rewrite EC; unfold depth at 1, pending; cbn [count push]; lia). assert (P2 : push c2 = None) by (rewrite EC; reflexivity).
      assert (HL2 : lay c2 G bs) by (rewrite EC; eapply lay_ext; [exact HL1|reflexivity..|cbn [count]; rewrite <- D1; apply count_depth]).
      pose proof (IHb _ _ _ _ _ _ _ _ _ _ _ m3 e' s' N post HB2 HP3 HS2 (fun y Hy => HG y (in_or_app _ _ _ (or_intror Hy))) H2 HSU HL2 HI2 ltac:(unfold pend; rewrite P2; exact I) (fun p Hp => HN p (or_intror Hp))) as Y.
      replace (blocks c2) with (blocks c) in Y by (rewrite EC; symmetry; exact EB). replace (tags c2) with (tags c) in Y by (rewrite EC; symmetry; exact ET).
      assert (HR2 : pres G (depth c) (view c m) (view c2 m3)) by (intros i Hi Hn; rewrite view_flat by exact P2; rewrite EV; apply H3; assumption).
      eapply out_sub with (D := depth c); [exact Y|exact HR2|eapply lay_offs; [exact HL|apply count_depth]|lia|]. intros vs e2 s2 cc (m4 & -> & J1 & J2 & J3 & J4).
      eapply out_normal; [apply reach_refl|]. exists m4. split; [reflexivity|]. split; [exact J1|]. rewrite D2 in *. split; [|split; [eapply pres_trans; [exact HR2|exact J3|lia]|exact J4]].
      cbn [values]. rewrite J2, J3 by (lia || (eapply outside; [exact HL|apply count_depth])). rewrite view_flat by exact P2. rewrite EV, HV. reflexivity. }
    destruct (special x) eqn:SX; destruct X as (H2 & HB2 & EC).
    + assert (EI : ids c2 = ids c1) by (rewrite EC; reflexivity). eapply REST; [exact H2|exact HB2| |rewrite EI; exact EC]. intros y Hy; destruct (HS y Hy); [left|right; right]; assumption.
    + eapply REST; [exact H2|exact HB2| |exact EC]. intros y [<-|Hy]; [right; left; reflexivity|]; destruct (HS y Hy); [left|right; right]; assumption.
Qed.

(** *** let: the special variables *)
Definition bind1 (r : glob * list (nat * V)) (p : nat * V) : glob * list (nat * V) := (upd (fst r) (fst p) (snd p), (fst p, fst r (fst p)) :: snd r).
Lemma bind_specials_left : forall l g, bind_specials l g = fold_left bind1 (rev l) (g, []).
Proof. intros l g. unfold bind_specials. rewrite <- fold_left_rev_right, rev_involutive. reflexivity. Qed.
Lemma forall2_in : forall (A B : Type) (P Q : A -> B -> Prop) l l', Forall2 P l l' -> (forall a b, In a l -> P a b -> Q a b) -> Forall2 Q l l'.
Proof. intros A B P Q l l' H. induction H as [|a b l l' H HF IHF]; intro K; constructor; [apply K; [left; reflexivity|exact H]|apply IHF; intros; apply K; [right; assumption|assumption]]. Qed.
Lemma let_specials_run : forall is G0 fr G sp vp f Gp bnd k l c c' o u bs m e s sv post,
  building special is G0 fr c f Gp bnd k l -> (forall x, In x (map fst sp) -> special x = true) -> let_specials special sp c = Some (u, c', o) ->
  lay c G bs -> inv G bs m e s -> pend c m -> Forall2 (fun p q => fst p = fst q /\ snd p < depth c /\ view c m (snd p) = Cell (snd q)) sp vp ->
  exists m' bsp, reach (Running L (o ++ post) m) (Running L post m') /\ lay c' G (bsp ++ bs) /\
    inv G (bsp ++ bs) m' e (mkState L (fst (fold_left bind1 vp (gl L s, sv))) (wd L s)) /\ pend c' m' /\ saved bsp ++ sv = snd (fold_left bind1 vp (gl L s, sv)) /\
    length bsp = length sp /\ framed (depth c) bsp /\ blocks c' = blocks c /\ tags c' = tags c /\ forall i, i < depth c -> view c' m' i = view c m i.
Proof.
  intros is G0 fr G sp; induction sp as [|[x off] r IHs]; intros vp f Gp bnd k l c c' o u bs m e s sv post HB HS H HL HI HPE HF.
  - cbn [let_specials] in H. known. inversion HF; subst. exists m, []. cbn [fold_left fst snd]. split; [apply reach_refl|]. split; [exact HL|]. split; [destruct s; exact HI|]. split; [exact HPE|].
    repeat (split; [reflexivity|]). split; [intros b []|]. auto.
  - inversion HF as [|? [y v] ? vr (E1 & E2 & E3) HF']; subst. cbn [fst snd] in E1, E2, E3. subst y. cbn [map fst] in HS.
    destruct (let_special_step special _ _ _ _ _ _ _ _ _ _ _ _ _ _ _ HB (HS x (or_introl eq_refl)) H) as (c2 & o2 & -> & H2 & HB2 & EC).
    set (m1 := flushed c m). assert (EV : forall i, loc L m1 i = view c m i) by (intro i; apply flushed_loc; exact HPE).
    pose proof (count_depth c) as CC. pose proof (inv_flush _ _ _ _ _ _ HL HI HPE) as HI1.
    destruct (bind_run c G bs (set_w L m1 v) e s (depth c) x v) as (HI2 & EL2); [exact HL|lia|eapply inv_ext; [exact HL|exact HI1|reflexivity..]|reflexivity|].
    set (m2 := bindspecial L (set_w L m1 v) x (depth c)) in *.
    assert (D2 : depth c2 = depth c + 3) by (rewrite EC; unfold depth at 1, pending; cbn [count push]; lia). assert (P2 : push c2 = None) by (rewrite EC; reflexivity).
    assert (HL2 : lay c2 G ((depth c, (x, gl L s x)) :: bs)).
    { rewrite EC. eapply (lay_spe c _ _ _ _ _ _ (depth c)); [exact HL|exact CC|cbn [count]; lia|reflexivity|reflexivity|reflexivity| |]; intros j Hj; pose proof (ly_off _ _ _ HL j Hj); lia. }
    destruct (IHs vr _ _ _ _ _ c2 c' o2 u _ m2 e _ ((x, gl L s x) :: sv) post HB2 (fun z Hz => HS z (or_intror Hz)) H2 HL2 HI2) as (m' & bsp & R1 & R2 & R3 & R4 & R5 & R6 & R7 & R8 & R9 & R10).
    { unfold pend. rewrite P2. exact I. }
    { eapply forall2_in; [exact HF'|]. intros [a b] [a' b'] _ (F1 & F2 & F3). cbn [fst snd] in *. split; [exact F1|]. split; [lia|]. rewrite view_flat by exact P2. rewrite EL2 by lia. change (loc L (set_w L m1 v) b) with (loc L m1 b). rewrite EV. exact F3. }
    exists m', (bsp ++ [(depth c, (x, gl L s x))]). rewrite <- !app_assoc, cons1.
    split; [|split; [exact R2|split; [exact R3|split; [exact R4|split; [|split; [|split; [|split; [|split]]]]]]]].
    + eapply reach_trans; [apply flush_run; exact HPE|]. rewrite two. eapply reach_next; [cbn [CompModel.step]; unfold on; cbn [value]; rewrite (flushed_loc c m off HPE), E3; reflexivity|]. eapply reach_next; [reflexivity|]. exact R1.
    + unfold saved. rewrite map_app, <- app_assoc. exact R5.
    + rewrite app_length, R6. cbn [length]. lia.
    + intros b Hb. apply in_app_or in Hb as [Hb|[<-|[]]]; [specialize (R7 b Hb); lia|cbn [fst]; lia].
    + rewrite R8, EC. reflexivity.
    + rewrite R9, EC. reflexivity.
    + intros i Hi. rewrite R10 by lia. rewrite view_flat by exact P2. rewrite EL2 by lia. apply EV.
Qed.

(** *** let *)
Lemma slots_in : forall D b p, In p (slots D b) -> D <= snd p < D + length b.
Proof. intros D b [x k] H. apply in_combine_r in H. apply in_seq in H. exact H. Qed.
Lemma slots_values : forall (f : nat -> cell) b D vs, values f D (length b) = Some vs -> Forall2 (fun p q => fst p = fst q /\ f (snd p) = Cell (snd q)) (slots D b) (combine (map fst b) vs).
Proof.
  intros f b; induction b as [|[x a] r IHb]; intros D vs H; [constructor|]. cbn [length values] in H. destruct (f D) as [v| | |] eqn:E; try discriminate.
  destruct (values f (S D) (length r)) as [l|] eqn:E2; [|discriminate]. injection H as <-. unfold slots. cbn [map fst length seq combine]. constructor; [auto|apply IHb; exact E2].
Qed.
Lemma forall2_filter : forall (A B : Type) (P : A -> B -> Prop) p q l l', (forall a b, P a b -> p a = q b) -> Forall2 P l l' -> Forall2 P (filter p l) (filter q l').
Proof. intros A B P p q l l' E H. induction H as [|a b l l' H HF IHF]; [constructor|]. cbn [filter]. rewrite (E a b H). destruct (q b); [constructor|]; auto. Qed.
Lemma forall2_rev : forall (A B : Type) (P : A -> B -> Prop) l l', Forall2 P l l' -> Forall2 P (rev l) (rev l').
Proof. intros A B P l l' H. induction H; [constructor|]. cbn [rev]. apply Forall2_app; [assumption|repeat constructor; assumption]. Qed.
Lemma forall2_length : forall (A B : Type) (P : A -> B -> Prop) l l', Forall2 P l l' -> length l = length l'.
Proof. intros A B P l l' H. induction H; cbn [length]; congruence. Qed.
Lemma forall2_map : forall (A B C : Type) (f : A -> C) (P : C -> B -> Prop) l l', Forall2 (fun a b => P (f a) b) l l' -> Forall2 P (map f l) l'.
Proof. intros A B C f P l l' H. induction H; constructor; auto. Qed.
Lemma slots_nodup : forall D b, NoDup (map snd (slots D b)).
Proof.
  intros D b; revert D; induction b as [|[x a] r IHb]; intro D; [constructor|]. unfold slots. cbn [map fst length seq combine snd]. constructor; [|apply IHb].
  intro H. apply in_map_iff in H as (p & E & HI). change (In p (slots (S D) r)) in HI. apply slots_in in HI. lia.
Qed.
Lemma nodup_filter_map : forall (A B : Type) (f : A -> B) p l, NoDup (map f l) -> NoDup (map f (filter p l)).
Proof.
  intros A B f p; induction l as [|a r IHl]; intro H; [constructor|]. cbn [map] in H. inversion H as [|? ? N1 N2]; subst. cbn [filter]. destruct (p a); [|auto]. cbn [map]. constructor; [|auto].
  intro K. apply N1. apply in_map_iff in K as (b & E & HI). apply filter_In in HI as (HI & _). rewrite <- E. apply in_map. exact HI.
Qed.
Lemma lexG_locals : forall D b, locals (lexG D b) = rev (map InLocal (map snd (filter (fun p => negb (special (fst p))) (slots D b)))).
Proof. intros D b. unfold locals, lexG. rewrite map_rev, !map_map. reflexivity. Qed.
Lemma lexG_in : forall D b i, In i (locals (lexG D b)) -> exists k, i = InLocal k /\ D <= k < D + length b.
Proof.
  intros D b i H. rewrite lexG_locals in H. apply in_rev in H. rewrite map_map in H. apply in_map_iff in H as (p & <- & H). apply filter_In in H as (H & _). exists (snd p). split; [reflexivity|apply slots_in; exact H].
Qed.
Lemma lexG_nodup : forall D b, NoDup (locals (lexG D b)).
Proof.
  intros D b. rewrite lexG_locals. apply NoDup_rev. generalize (nodup_filter_map _ _ snd (fun p => negb (special (fst p))) _ (slots_nodup D b)). generalize (map snd (filter (fun p => negb (special (fst p))) (slots D b))). intros l H.
  induction H as [|k l N H IHH]; [constructor|]. cbn [map]. constructor; [|exact IHH]. intro K. apply in_map_iff in K as (j & E & HI). injection E as ->. contradiction.
Qed.
Lemma let_sound : forall b l, sound (S n) (Let b l).
Proof.
  intros b l c c' u o G bs post m e s HP HA HC HS HL HI HPE. rewrite plain_let in HP. apply andb_true_iff in HP as (HP1 & HP2).
  change (comp (Let b l)) with (c0 <- get ;; create_frame ;; sp <- let_inits special comp b [] ;; let_specials special sp ;;
    c1 <- get ;; set_scope (length (ids c1) - 1) ;; progn comp l ;; set_unwinds (unwinds c0) ;; delete_frame) in HC.
  step HC v1 c1 o1 B1. known. step HC v2 c2 o2 B2. apply create_inv in B2 as (-> & ->). pose proof (created special _ _ _ _ HA) as HB. step HC sp c3 o3 B3.
  pose proof (good_level special _ _ _ HA) as HG. cbn [fv] in HG.
  match type of HB with building _ _ _ _ ?x _ _ _ _ _ => set (c0 := x) in * end.
  assert (HG3 : forall x, In x (flat_map (fun p => fv (snd p)) b) -> good special (ids c) G (length (ids c) - 1) x) by (intros x Hx; apply HG, in_or_app; left; exact Hx).
  destruct (let_inits_slots _ _ _ _ [] _ _ _ _ _ _ _ _ _ _ HB HP1 (fun x (K : In x []) => match K with end) HG3 B3) as (f3 & HB3 & ES & D3 & E1 & E2 & E3 & E4).
  change (depth c0) with (depth c) in *. rewrite app_nil_r in ES. rewrite !app_nil_r in HB3.
  assert (EN : map fst sp = rev (spenames special b)).
  { rewrite ES. unfold speS, spenames. rewrite map_rev. f_equal. unfold slots. clear. generalize (depth c). induction b as [|[x a] r IHr]; intro d; [reflexivity|]. cbn [map fst length seq combine filter]. destruct (special x); cbn [map fst]; rewrite IHr; reflexivity. }
  step HC v4 c4 o4 B4. destruct (let_specials_ct special _ _ _ _ _ _ _ _ _ _ _ _ _ HB3 (spe_special special _ _ EN) B4) as (f4 & HB4 & D4 & _ & _).
  step HC v5 c5 o5 B5. known. step HC v6 c6 o6 B6. unfold set_scope in B6. injection B6 as <- <- <-. rewrite ?app_nil_l in *. rewrite <- !app_assoc in HS |- *.
  change (eval (S n) (Let b l) e s) with (ev_let L (eval n) b l e s). unfold ev_let.
  assert (HL0 : lay c0 G bs) by (eapply lay_ext; [exact HL|reflexivity..]).
  pose proof (let_inits_run _ _ _ bs _ [] _ _ _ _ _ _ _ _ _ _ m e s (S n - height (Let b l)) _ HB HP1 (fun x (K : In x []) => match K with end) HG3 B3 HS HL0 HI HPE) as HX.
  eapply out_bind; [apply HX|apply Nat.le_refl|].
  { intros [x a] Hp. cbn [height snd]. pose proof (list_max_in _ (fun p => height (snd p)) b _ Hp) as H. cbn [snd] in H. lia. }
  intros vs e' s' cc (m2 & -> & H1 & HV & H3 & PE). apply suffix_app in HS. cbv zeta. change (depth c0) with (depth c) in *. change (view c0 m) with (view c m) in *.
  set (pairs := combine (map fst b) vs) in *. pose proof (slots_values _ _ _ _ HV) as HF. fold pairs in HF. pose proof (count_depth c) as CC.
  assert (CV : forall p, In p (slots (depth c) b) -> push c3 = None /\ count c3 = depth c + length b).
  { intros p Hp. destruct E4 as [(-> & _)|E4]; [destruct Hp|]. split; [exact E4|]. unfold depth, pending in D3. rewrite E4 in D3. unfold depth, pending. lia. }
  assert (HL3 : lay c3 (lexG (depth c) b ++ G) bs).
  { apply (lay_lexs c _ _ _ _ (depth c)); [exact HL|exact CC| |apply lexG_nodup| |exact E1|exact E2|exact E3|].
    - intros i Hi. destruct (lexG_in _ _ _ Hi) as (j & -> & Hj). exists j. split; [reflexivity|lia].
    - intros j Hj. rewrite lexG_locals in Hj. apply in_rev in Hj. rewrite map_map in Hj. apply in_map_iff in Hj as (p & Ep & Hp). injection Ep as <-. apply filter_In in Hp as (Hp & _). destruct (CV p Hp) as (_ & ->). apply slots_in in Hp. lia.
    - destruct E4 as [(_ & ->)|E4]; [apply Nat.le_refl|]. unfold depth at 1, pending in D3. rewrite E4 in D3. lia. }
  set (lex := filter (fun p => negb (CompLang.special L (fst p))) pairs).
  assert (HLX : Forall2 (fun p q => fst p = fst q /\ (True -> slot m2 (snd p) = Some (snd q))) (lexG (depth c) b) (rev lex)).
  { unfold lexG. rewrite <- map_rev. apply forall2_map. apply forall2_rev.
    assert (HF2 : Forall2 (fun p q => fst p = fst q /\ view c3 m2 (snd p) = Cell (snd q)) (filter (fun p => negb (special (fst p))) (slots (depth c) b)) lex).
    { apply forall2_filter; [|exact HF]. intros p q (E & _). rewrite E. reflexivity. }
    eapply forall2_in; [exact HF2|]. intros p q Hp (F1 & F2). cbn [fst snd]. split; [exact F1|]. intros _. cbn [slot]. apply filter_In in Hp as (Hp & _). destruct (CV p Hp) as (P3 & _). rewrite view_flat in F2 by exact P3. rewrite F2. reflexivity. }
  assert (HI3 : inv (lexG (depth c) b ++ G) bs m2 (rev lex ++ e') s').
  { destruct H1 as (J1 & J2). split; [|exact J2]. apply Forall2_app; [exact HLX|exact J1]. }
  assert (HSP : Forall2 (fun p q => fst p = fst q /\ snd p < depth c3 /\ view c3 m2 (snd p) = Cell (snd q)) sp (rev (filter (fun p => CompLang.special L (fst p)) pairs))).
  { rewrite ES. unfold speS. apply forall2_rev.
    assert (HF2 : Forall2 (fun p q => fst p = fst q /\ view c3 m2 (snd p) = Cell (snd q)) (filter (fun p => special (fst p)) (slots (depth c) b)) (filter (fun p => CompLang.special L (fst p)) pairs)).
    { apply forall2_filter; [|exact HF]. intros p q (E & _). rewrite E. reflexivity. }
    eapply forall2_in; [exact HF2|]. intros p q Hp (F1 & F2). split; [exact F1|]. split; [|exact F2]. apply filter_In in Hp as (Hp & _). apply slots_in in Hp. lia. }
  destruct (let_specials_run _ _ _ (lexG (depth c) b ++ G) _ _ _ _ _ _ _ _ _ _ _ bs m2 _ _ [] (o ++ post) HB3 (spe_special special _ _ EN) B4 HL3 HI3 PE HSP) as (m4 & bsp & R1 & R2 & R3 & R4 & R5 & R6 & R7 & R8 & R9 & R10).
  eapply out_reach; [exact R1|]. apply suffix_app in HS. rewrite <- bind_specials_left in R3, R5. rewrite app_nil_r in R5. rewrite <- R5.
  assert (EL : length lex = length (lexG (depth c) b)) by (rewrite (forall2_length _ _ _ _ _ HLX), rev_length; reflexivity). rewrite EL.
  set (c5 := with_scope c4 (length (ids c4) - 1)) in *. pose proof HB4 as [I4 O4 NE4 F4 K4].
  eapply (body_run c c5 c' G bs (lexG (depth c) b) bsp l); [split; [exact I4|exact O4|exact NE4|exact F4|exact K4]| | |exact HP2|exact HC|exact HS|exact HL|eapply lay_ext; [exact R2|reflexivity..]|exact R3|exact R4|change (blocks c4 = blocks c); rewrite R8; exact E1|change (tags c4 = tags c); rewrite R9; exact E2|rewrite R6; reflexivity| | | | |].
  - unfold c5. cbn [scope with_scope]. rewrite I4. cbn [length]. lia.
  - apply (body_bound special _ _ _ _ _ _ EN (fun x Hx => HG x (in_or_app _ _ _ (or_intror Hx)))). rewrite app_nil_r. reflexivity.
  - change (depth c5) with (depth c4). rewrite D4, D3. lia.
  - apply above_over. intros i Hi. destruct (lexG_in _ _ _ Hi) as (j & -> & Hj). exists j. split; [reflexivity|lia].
  - intros q Hq. specialize (R7 q Hq). lia.
  - change (view c5 m4) with (view c4 m4). intros i Hi Hn. rewrite R10 by lia. apply H3; assumption.
  - intros a Ha. cbn [height]. pose proof (list_max_in _ height l a Ha). lia.
Qed.
End Step.

(** *** while and tagbody: the forms which loop *)
Section Loop.
Variable n : nat.
Hypothesis IH : forall k x, k <= n -> sound k x.
Hypothesis IHc : forall k x, k <= n -> csound k x.

Lemma catch_twice : forall A b (o : option (out L V)) (k : A), catch_block L b (catch_block L b o) = catch_block L b o.
Proof. intros A b [[a e s|b' v e s|t e s|]|] _; try reflexivity. cbn [catch_block]. destruct (Nat.eqb b' b) eqn:E; [reflexivity|]. cbn [catch_block]. rewrite E. reflexivity. Qed.
Lemma while_twice : forall k a l e s, catch_block L 0 (eval k (While a l) e s) = eval k (While a l) e s.
Proof. intros [|k] a l e s; [reflexivity|]. cbn [CompLang.eval]. apply (catch_twice unit _ _ tt). Qed.
Lemma while_sound : forall a l, sound (S n) (While a l).
Proof.
  intros a l c c' u o G bs post m0 e0 s0 HP HA HC HS HL HI HPE.
  change (comp (While a l)) with (whilent <- genlabel ;; whilexit <- genlabel ;; whileblock <- enter_block 0 ;;
    label whilent ;; evcon comp a None (Some whilexit) ;; progn comp l ;; discard 1 ;; jump whilent ;;
    label whilexit ;; load_const NIL ;; label whileblock ;; leave_block) in HC.
  step HC v1 c1 o1 B1. known. step HC v2 c2 o2 B2. known. cbn [lab with_lab] in *.
  step HC v3 c3 o3 B3. apply enter_block_inv in B3 as (-> & -> & ->).
  match type of HC with bind _ _ ?C = _ => change C with (in_block c 0 (S (S (S (lab c)))) (S (S (S (lab c))))) in HC end. set (ent := S (lab c)) in *. set (ex := S ent) in *. set (lb := S ex) in *.
  set (cb := in_block c 0 lb lb) in *.
  assert (HAb : pre cb G (fv (While a l)) (letfree (While a l))) by (apply (pre_ext _ c); [exact HA|reflexivity|reflexivity]).
  pose proof (keep_refl (letfree (While a l)) cb) as K. assert (DB : depth cb = depth c) by (unfold depth at 1, pending; cbn; lia).
  step HC v4 c4 o4 B4. known. mov K (flat cb). step HC v5 c5 o5 B5. pose proof K as KA. advC a HAb K B5 P5 D5. pose proof K as KB.
  step HC v6 c6 o6 B6. advP l HAb K B6 D6.
  step HC v7 c7 o7 B7. known. step HC v8 c8 o8 B8. known. step HC v9 c9 o9 B9. known. step HC v10 c10 o10 B10. known. step HC v11 c11 o11 B11. known. apply leave_block_inv in HC as (-> & ->).
  set (ce := flat (flat (popped c6))) in *. assert (D5' : depth c5 = depth c) by (unfold depth at 1, pending; rewrite P5, D5, depth_flat; lia).
  assert (DE : depth ce = depth c) by (unfold ce; rewrite !depth_flat, depth_popped; lia).
  change (flush (flat (popped c6))) with (@nil stmt) in *. change (flush (popped c6)) with (@nil stmt) in *. change (flush ce) with (@nil stmt) in *. change (flush cb) with (@nil stmt) in *.
  change (flush (with_lab (with_lab c ent) ex)) with (flush c) in *. change (flush (pc ce (Some (CConst NIL)) (depth ce))) with [SLocal (depth ce) (CConst NIL)] in *. change (S (lab (with_lab (with_lab c ent) ex))) with lb in *.
  rewrite DE in *. right_assoc. rewrite !one in *. match goal with |- context [top ?x G bs _ _ post] => set (cf := x) end.
  eapply out_reach; [apply flush_run; exact HPE|]. apply suffix_app in HS. pose proof HS as HSent. apply suffix_cons in HS. set (m1 := flushed c m0).
  assert (I1 : inv G bs m1 e0 s0) by (apply inv_flush; assumption). assert (P1 : pres G (depth c) (view c m0) (loc L m1)) by (intros i _ _; apply flushed_loc; exact HPE).
  eapply out_reach; [eapply reach_next; [reflexivity|apply reach_refl]|].
  assert (LB : lay cb G bs) by (apply block_lay; exact HL). pose proof (count_depth c) as CC.
  set (rest := o6 ++ SGoto ent :: SLabel ex :: SLocal (depth c) (CConst NIL) :: SLabel lb :: post) in *.
  pose proof HS as HS6. apply suffix_app in HS6. unfold rest in HS6. pose proof HS6 as HSx. apply suffix_app in HSx. apply suffix_cons in HSx. pose proof HSx as HSl. apply suffix_cons in HSl. apply suffix_cons in HSl.
  (* leaving through the block *)
  assert (OUT : forall v e s m2 N, loc L m2 (depth c) = Cell v -> rel (depth c) G bs (view c m0) m2 e s -> outcome (blocks c) (tags c) G bs (view c m0) (goto lb m2) N (Some (Normal v e s)) (top cf G bs (depth c) (view c m0) post)).
  { intros v e2 s2 m2 N H1 H2. rewrite (goto_here _ _ _ HSl). destruct (rel_inv c G bs _ m2 e2 s2 (depth c) HL CC H2) as (J1 & J2). apply done; [exact J1|rewrite view_flat by reflexivity; exact H1|apply pres_view; [exact J2|reflexivity]]. }
  assert (HNa : forall k, S k - height (While a l) <= k - height a) by (intro k; cbn [height]; lia).
  assert (HNl : forall k x, In x l -> S k - height (While a l) <= k - height x) by (intros k x Hx; cbn [height]; pose proof (list_max_in _ height l x Hx); lia).
  assert (OFF : offs ((0, (lb, depth c)) :: blocks c) (tags c) (depth c)) by (apply (lay_offs cb G bs); [exact LB|cbn [count cb in_block]; apply Nat.le_refl]).
  assert (LF : lay (flat cb) G bs) by (eapply lay_ext; [exact LB|reflexivity..|apply (count_depth cb)]).
  assert (L5 : lay c5 G bs) by (eapply lay_later; [exact LB|exact KB|cbn [count cb in_block]; rewrite D5, depth_flat, DB; lia]).
  assert (PA : pre (flat cb) G (fv a) (letfree a)) by (eapply pre_keep; [exact HAb|exact KA|inc|lfi]).
  assert (PL : pre c5 G (flat_map fv l) (forallb letfree l)) by (eapply pre_keep; [exact HAb|exact KB|inc|lfi]).
  assert (HPa : plain a = true) by bt. assert (HPl : forallb plain l = true) by bt.
  assert (EB5 : blocks c5 = (0, (lb, depth c)) :: blocks c) by (rewrite (kp_blocks _ _ _ KB); reflexivity). assert (ET5 : tags c5 = tags c) by (rewrite (kp_tags _ _ _ KB); reflexivity).
  clear HI HPE.
  assert (LOOP : forall k, k <= S n -> forall m e s, inv G bs m e s -> pres G (depth c) (view c m0) (loc L m) ->
    outcome (blocks c) (tags c) G bs (view c m0) (Running L (o5 ++ rest) m) (k - height (While a l)) (eval k (While a l) e s) (top cf G bs (depth c) (view c m0) post)).
  { induction k as [|k IHk]; intros HK m e s HI HR.
    - cbn [CompLang.eval outcome]. exists 0. eexists; eexists. split; [lia|reflexivity].
    - change (eval (S k) (While a l) e s) with (catch_block L 0 (obind L (eval k a e s) (fun v e s => if V_eqb v NIL then Some (Normal NIL e s) else obind L (ev_progn L (eval k) l e s) (fun _ e s => eval k (While a l) e s)))).
      pose proof (IHc k a ltac:(lia) None (Some ex) (flat cb) c5 v5 o5 G bs rest m e s (or_introl eq_refl) HPa PA B5 HS LF HI I) as H.
      change (blocks (flat cb)) with ((0, (lb, depth c)) :: blocks c) in H. change (tags (flat cb)) with (tags c) in H.
      rewrite depth_flat, DB in H. apply out_ref with (R := view c m0) (D := depth c) in H; [|exact HR|exact OFF].
      eapply out_catch_bind; [exact H|apply HNa| |intros; apply OUT; assumption]. intros v e2 s2 cc (m2 & -> & H1 & H2). cbn [branch].
      destruct (V_eqb v NIL).
      + cbn [catch_block]. rewrite (goto_here _ _ _ HSx). eapply out_reach; [eapply reach_next; [reflexivity|]; eapply reach_next; [reflexivity|apply reach_refl]|]. apply done.
        * eapply inv_ext; [exact HL|exact H1| |reflexivity..]. intros i Hi. cbn. destruct (Nat.eqb_spec i (depth c)); [lia|reflexivity].
        * rewrite view_flat by reflexivity. cbn. rewrite Nat.eqb_refl. reflexivity.
        * apply pres_view; [|reflexivity]. intros i Hi Hn. cbn. destruct (Nat.eqb_spec i (depth c)); [lia|]. rewrite <- (HR i Hi Hn). apply H2; assumption.
      + assert (HR2 : pres G (depth c) (view c m0) (view c5 m2)) by (apply pres_view; [eapply pres_trans; [exact HR|exact H2|lia]|exact P5]).
        pose proof (progn_run k (fun x => IH k x ltac:(lia)) l c5 c6 v6 o6 G bs _ m2 e2 s2 (S k - height (While a l)) HPl PL B6 HS6 L5 H1 ltac:(unfold pend; rewrite P5; exact I) (HNl k)) as HX.
        rewrite EB5, ET5, D5' in HX. apply out_ref with (R := view c m0) (D := depth c) in HX; [|exact HR2|exact OFF].
        eapply out_catch_bind; [exact HX|apply Nat.le_refl| |intros; apply OUT; assumption]. intros v2 e3 s3 cc (m3 & -> & J1 & J2 & J3).
        rewrite while_twice. pose proof (count_depth c6) as C6. pose proof (depth_count c6) as C6'.
        eapply out_weak with (N := S (k - height (While a l))); [|cbn [height]; lia|intros ? ? ? ? HH; exact HH].
        eapply out_reach1; [exists 0; cbn [steps CompModel.step]; apply (goto_here ent _ _ HSent)|]. apply IHk; [lia|exact J1|].
        intros i Hi Hn. rewrite <- (HR2 i Hi Hn), <- (J3 i Hi Hn). symmetry. apply view_low. lia. }
  clear - LOOP I1 P1. apply LOOP; [apply Nat.le_refl|exact I1|exact P1].
Qed.

(** the place in a tagbody *)
Definition item_fv (i : nat + exp) : list nat := match i with inl _ => [] | inr a => fv a end.
Definition item_lf (i : nat + exp) : bool := match i with inl _ => true | inr a => letfree a end.
Definition item_ok (i : nat + exp) : bool := match i with inl _ => true | inr a => plain a end.
Definition item_ht (i : nat + exp) : nat := match i with inl _ => 0 | inr a => height a end.
Record place (l : list (nat + exp)) (ct c4 : cst) (G : ctx) (post : list stmt) (rest : list (nat + exp)) (cr : cst) (o : list stmt) : Prop := mkPlace {
  pl_code : exists u, items comp rest cr = Some (u, c4, o);
  pl_keep : keep (forallb item_lf l) ct cr;
  pl_push : push cr = None;
  pl_count : count cr = count ct;
  pl_in : incl rest l;
  pl_suffix : suffix (o ++ post) prog
}.
Lemma item_pre : forall l ct cr G a, pre ct G (flat_map item_fv l) (forallb item_lf l) -> keep (forallb item_lf l) ct cr -> In (inr a) l -> pre cr G (fv a) (letfree a).
Proof.
  intros l ct cr G a HA K HI. eapply pre_keep; [exact HA|exact K| |].
  - intros x Hx. apply in_flat_map. exists (inr a). auto.
  - intro H. rewrite forallb_forall in H. apply (H _ HI).
Qed.
Lemma place_step : forall l ct c4 G post a r cr o, forallb item_ok l = true -> pre ct G (flat_map item_fv l) (forallb item_lf l) -> place l ct c4 G post (inr a :: r) cr o ->
  exists u c1 o1 o2, comp a cr = Some (u, c1, o1) /\ o = o1 ++ o2 /\ depth c1 = S (depth cr) /\ keep (letfree a) cr c1 /\ place l ct c4 G post r (popped c1) o2.
Proof.
  intros l ct c4 G post a r cr o HP HA [(u & HC) K P C HI HS]. cbn [items] in HC. step HC v1 c1 o1 B1. step HC v2 c2 o2 B2. known. rewrite ?app_nil_l in *.
  assert (HIa : In (inr a) l) by (apply HI; left; reflexivity). assert (HPa : plain a = true) by (rewrite forallb_forall in HP; apply (HP _ HIa)).
  destruct (ctof a cr c1 v1 o1 G HPa (item_pre _ _ _ _ _ HA K HIa) B1) as (K1 & _ & D1).
  match type of HC with _ = Some (_, _, ?x) => exists v1, c1, o1, x end. split; [exact B1|]. split; [reflexivity|]. split; [exact D1|]. split; [exact K1|]. split.
  - eexists; exact HC.
  - eapply keep_trans; [exact K|]. eapply keep_trans; [eapply keep_weaken; [exact K1|]|apply keep_pc]. intro H. rewrite forallb_forall in H. apply (H _ HIa).
  - reflexivity.
  - cbn [count popped pc]. rewrite D1. unfold depth, pending. rewrite P. lia.
  - intros x Hx. apply HI. right; exact Hx.
  - rewrite <- app_assoc in HS. apply suffix_app in HS. exact HS.
Qed.
Lemma place_label : forall l ct c4 G post t r cr o, place l ct c4 G post (inl t :: r) cr o ->
  exists lb k o2, assq t (tags ct) = Some (lb, k) /\ o = SLabel lb :: o2 /\ place l ct c4 G post r (flat cr) o2.
Proof.
  intros l ct c4 G post t r cr o [(u & HC) K P C HI HS]. cbn [items] in HC. step HC v1 c1 o1 B1. known. step HC v2 c2 o2 B2. destruct (assq t (tags cr)) as [[lb k]|] eqn:E; [|known]. known.
  assert (FL : flush cr = []) by (unfold flush; rewrite P; reflexivity). rewrite FL in *. rewrite ?app_nil_l, ?one in *.
  match type of HC with _ = Some (_, _, ?x) => exists lb, k, x end. split; [rewrite <- E; f_equal; symmetry; apply (kp_tags _ _ _ K)|]. split; [reflexivity|]. split.
  - eexists; exact HC.
  - eapply keep_trans; [exact K|apply keep_pc].
  - reflexivity.
  - cbn [count flat pc]. unfold depth, pending. rewrite P. lia.
  - intros x Hx. apply HI. right; exact Hx.
  - rewrite <- app_comm_cons in HS. apply suffix_cons in HS. exact HS.
Qed.
Lemma place_find : forall l ct c4 G post rest cr o t q, forallb item_ok l = true -> pre ct G (flat_map item_fv l) (forallb item_lf l) -> place l ct c4 G post rest cr o -> after_tag t rest = Some q ->
  exists lb k cq oq, assq t (tags ct) = Some (lb, k) /\ suffix (SLabel lb :: oq ++ post) prog /\ place l ct c4 G post q cq oq.
Proof.
  intros l ct c4 G post rest; induction rest as [|[u|a] r IHr]; intros cr o t q HP HA HPL H; cbn [after_tag] in H; [discriminate| |].
  - pose proof (pl_suffix _ _ _ _ _ _ _ _ HPL) as HS. destruct (place_label _ _ _ _ _ _ _ _ _ HPL) as (lb & k & o2 & E & -> & HPL2). destruct (Nat.eqb_spec u t) as [->|NE].
    + injection H as <-. exists lb, k, (flat cr), o2. split; [exact E|]. split; [exact HS|exact HPL2].
    + eapply IHr; eauto.
  - destruct (place_step _ _ _ _ _ _ _ _ _ HP HA HPL) as (u & c1 & o1 & o2 & _ & _ & _ & _ & HPL2). eapply IHr; eauto.
Qed.
Lemma place_end : forall l ct c4 G post rest cr o, forallb item_ok l = true -> pre ct G (flat_map item_fv l) (forallb item_lf l) -> place l ct c4 G post rest cr o -> push c4 = None /\ count c4 = count ct.
Proof.
  intros l ct c4 G post rest; induction rest as [|[u|a] r IHr]; intros cr o HP HA HPL.
  - destruct HPL as [(u & HC) _ P C _ _]. cbn [items] in HC. known. auto.
  - destruct (place_label _ _ _ _ _ _ _ _ _ HPL) as (lb & k & o2 & E & -> & HPL2). eapply IHr; eauto.
  - destruct (place_step _ _ _ _ _ _ _ _ _ HP HA HPL) as (u & c1 & o1 & o2 & _ & _ & _ & _ & HPL2). eapply IHr; eauto.
Qed.
Lemma items_run : forall k, k <= n -> forall l ct c4 G bs post R, forallb item_ok l = true -> pre ct G (flat_map item_fv l) (forallb item_lf l) -> lay ct G bs ->
  forall rest cr o m e s N, place l ct c4 G post rest cr o -> inv G bs m e s -> pres G (count ct) R (loc L m) -> (forall a, In (inr a) l -> N <= k - height a) ->
  outcome (blocks ct) (tags ct) G bs R (Running L (o ++ post) m) N (ev_items L (eval k) rest e s)
    (fun v e s cc => exists m', cc = Running L post m' /\ v = NIL /\ inv G bs m' e s /\ pres G (count ct) R (loc L m')).
Proof.
  intros k HK l ct c4 G bs post R HP HA HL rest; induction rest as [|[t|a] r IHr]; intros cr o m e s N HPL HI HR HN; cbn [ev_items].
  - destruct HPL as [(u & HC) _ _ _ _ _]. cbn [items] in HC. known. rewrite app_nil_l. eapply out_normal; [apply reach_refl|]. exists m. auto.
  - destruct (place_label _ _ _ _ _ _ _ _ _ HPL) as (lb & j & o2 & E & -> & HPL2). rewrite <- app_comm_cons. eapply out_reach; [eapply reach_next; [reflexivity|apply reach_refl]|]. eapply IHr; eauto.
  - pose proof (pl_suffix _ _ _ _ _ _ _ _ HPL) as HS. pose proof HPL as [_ K P C HIn _]. destruct (place_step _ _ _ _ _ _ _ _ _ HP HA HPL) as (u & c1 & o1 & o2 & B1 & -> & D1 & K1 & HPL2).
    assert (HIa : In (inr a) l) by (apply HIn; left; reflexivity). assert (HPa : plain a = true) by (rewrite forallb_forall in HP; apply (HP _ HIa)). rewrite <- app_assoc in HS |- *.
    assert (HLr : lay cr G bs) by (eapply lay_later; [exact HL|exact K|rewrite C; apply Nat.le_refl]).
    pose proof (IH k a HK cr c1 u o1 G bs _ m e s HPa (item_pre _ _ _ _ _ HA K HIa) B1 HS HLr HI ltac:(unfold pend; rewrite P; exact I)) as H.
    assert (Dr : depth cr = count ct) by (unfold depth, pending; rewrite P, C; lia). rewrite (kp_blocks _ _ _ K), (kp_tags _ _ _ K), Dr in H.
    eapply out_sub with (D := count ct); [exact H|apply pres_view; [exact HR|exact P]|eapply lay_offs; [exact HL|apply Nat.le_refl]|apply HN; exact HIa|].
    intros v e2 s2 cc (m2 & -> & H1 & H2 & H3). eapply IHr; [exact HPL2|exact H1| |exact HN].
    intros i Hi Hn. rewrite <- (HR i Hi Hn). rewrite <- (view_flat cr m i P), <- (H3 i Hi Hn). symmetry. apply view_low. pose proof (depth_count c1). lia.
Qed.
Lemma after_tag_none : forall t l, after_tag t l = None -> ~ In t (tag_names l).
Proof.
  intros t; induction l as [|[u|a] r IHr]; intro H; [intros []| |]; cbn [after_tag] in H.
  - destruct (Nat.eqb_spec u t) as [|NE]; [discriminate|]. intros [K|K]; [contradiction|exact (IHr H K)].
  - exact (IHr H).
Qed.
Lemma after_tag_in : forall t l q, after_tag t l = Some q -> In t (tag_names l).
Proof.
  intros t; induction l as [|[u|a] r IHr]; intros q H; cbn [after_tag] in H; [discriminate| |].
  - destruct (Nat.eqb_spec u t) as [->|NE]; [left; reflexivity|right; eapply IHr; exact H].
  - exact (IHr q H).
Qed.
Lemma tagbody_sound : forall l, sound (S n) (Tagbody l).
Proof.
  intros l c c' u o G bs post m e s HP HA HC HS HL HI HPE. cbn [CompLang.plain] in HP. apply andb_true_iff in HP as (HP1 & HP2). apply distinct_nodup in HP1.
  change (comp (Tagbody l)) with (c0 <- get ;; fp <- offset_from_fp ;; enter_tags l fp ;; items comp l ;; load_const NIL ;; set_tags (tags c0)) in HC.
  step HC v1 c1 o1 B1. known. step HC v2 c2 o2 B2. known. step HC v3 c3 o3 B3.
  destruct (enter_tags_inv _ _ _ _ _ _ B3 HP1) as (-> & E1 & E2 & E3 & E4 & E5 & E6 & E7 & E8 & E9 & E10).
  step HC v4 c4 o4 B4. step HC v5 c5 o5 B5. known. unfold set_tags in HC. injection HC as <- <- <-. cbn [push count blocks unwinds flat pc] in E1, E2, E5, E6.
  rewrite ?app_nil_l in *. right_assoc.
  assert (A3 : pre c3 G (flat_map item_fv l) (forallb item_lf l)) by (apply (pre_ext _ c); [exact HA|exact E3|exact E4]).
  assert (PL : place l c3 c4 G (flush c4 ++ post) l c3 o4) by (split; [eexists; exact B4|apply keep_refl|exact E1|reflexivity|apply incl_refl|apply suffix_app in HS; exact HS]).
  destruct (place_end _ _ _ _ _ _ _ _ HP2 A3 PL) as (P4 & C4). assert (FL : flush c4 = []) by (unfold flush; rewrite P4; reflexivity). rewrite FL, ?app_nil_l in *.
  assert (D4 : depth c4 = depth c) by (unfold depth at 1, pending; rewrite P4, C4, E2; lia). rewrite D4 in *.
  assert (TG : forall t q, after_tag t l = Some q -> exists lb, assq t (tags c3) = Some (lb, depth c)).
  { intros t q Hq. apply after_tag_in in Hq. assert (HX : In (assq t (tags c3)) (map (fun t => assq t (tags c3)) (tag_names l))) by (apply (in_map (fun t => assq t (tags c3))); exact Hq).
    rewrite E10 in HX. apply in_map_iff in HX as (j & EX & _). exists j. symmetry. exact EX. }
  pose proof (count_depth c) as CC.
  assert (L3 : lay c3 G bs).
  { destruct HL as [A1 A2 A3' A4 A5 A6 A7].
    assert (EO : forall k, off c3 k -> k = depth c \/ off c k).
    { intros k (x & lb & [H|H]); [right; exists x, lb; left; rewrite <- E5; exact H|]. destruct (after_tag x l) as [q|] eqn:Q.
      - destruct (TG x q Q) as (lb' & E). rewrite E in H. injection H as _ <-. left; reflexivity.
      - rewrite E9 in H by (apply after_tag_none; exact Q). right. exists x, lb. right. exact H. }
    assert (EN : forall k, need_unwind c3 k = need_unwind c k) by (intro k; unfold need_unwind; rewrite E6; reflexivity).
    split; auto.
    - intros k H. rewrite E2. specialize (A1 k H). lia.
    - rewrite E2. eapply ord_le; [exact A4|exact CC].
    - intros k H. rewrite E2. destruct (EO k H) as [->|K]; [lia|]. specialize (A6 k K). lia.
    - intros k b H Hb. destruct (EO k H) as [->|K]; [right; pose proof (ord_in _ _ _ A4 Hb); lia|]. rewrite EN. apply A7; assumption. }
  eapply out_reach; [apply flush_run; exact HPE|]. apply suffix_app in HS. set (m1 := flushed c m).
  assert (I1 : inv G bs m1 e s) by (apply inv_flush; assumption). assert (P1 : pres G (depth c) (view c m) (loc L m1)) by (intros i _ _; apply flushed_loc; exact HPE).
  match goal with |- context [top ?x G bs _ _ post] => set (cf := x) end. set (M := list_max (map item_ht l)).
  assert (HN : forall k a, In (inr a) l -> S k - S M <= k - height a) by (intros k a Ha; pose proof (list_max_in _ item_ht l (inr a) Ha) as H; cbn [item_ht] in H; fold M in H; lia).
  assert (LOOP : forall k, k <= n -> forall rest cr o m0 e s, place l c3 c4 G post rest cr o -> inv G bs m0 e s -> pres G (depth c) (view c m) (loc L m0) ->
    outcome (blocks c) (tags c) G bs (view c m) (Running L (o ++ post) m0) (k - S M) (tagbody L k l rest e s) (top cf G bs (depth c) (view c m) post)).
  { induction k as [|k IHk]; intros HK rest cr o m0 e1 s1 HPL J1 J2.
    - cbn [tagbody outcome]. exists 0. eexists; eexists. split; [lia|reflexivity].
    - pose proof (items_run k ltac:(lia) l c3 c4 G bs post (view c m) HP2 A3 L3 rest cr o m0 e1 s1 (S k - S M) HPL J1) as H. rewrite E2 in H. specialize (H J2 (HN k)).
      change (tagbody L (S k) l rest e1 s1) with (match ev_items L (eval k) rest e1 s1 with Some (Jump t e s) => match after_tag t l with Some q => tagbody L k l q e s | None => Some (Jump t e s) end | o => o end).
      destruct (ev_items L (eval k) rest e1 s1) as [[v e2 s2|b v e2 s2|t e2 s2|]|]; cbn [outcome] in H.
      + destruct H as (cc & H1 & m2 & -> & -> & H2 & H3). cbn [outcome]. exists (Running L post m2). split; [exact H1|]. exists m2. split; [reflexivity|]. split; [exact H2|]. split.
        * unfold view, cf. cbn [push count pc]. rewrite Nat.eqb_refl. reflexivity.
        * intros i Hi Hn. rewrite view_low by (unfold cf; cbn [count pc]; exact Hi). apply H3; assumption.
      + destruct H as (lb & j & m2 & H1 & H2 & H3). rewrite E5 in H2. cbn [outcome]. exists lb, j, m2. auto.
      + destruct H as (lb & j & m2 & H1 & H2 & H3). destruct (after_tag t l) as [q|] eqn:Q.
        * destruct (place_find _ _ _ _ _ _ _ _ _ _ HP2 A3 PL Q) as (lb' & k' & cq & oq & F1 & F2 & F3). destruct (TG t q Q) as (lb2 & F4). rewrite F4 in F1, H2. injection F1 as -> _. injection H2 as <- <-.
          rewrite (goto_here _ _ _ F2) in H1. destruct (rel_inv c G bs _ m2 e2 s2 (depth c) HL CC H3) as (G1 & G2).
          apply (out_weak _ _ _ _ _ _ _ (S (k - S M)) _ _ (top cf G bs (depth c) (view c m) post)); [|lia|intros ? ? ? ? HH; exact HH]. eapply out_reach1; [exact H1|]. apply (IHk ltac:(lia) q cq oq m2 e2 s2 F3 G1 G2).
        * rewrite E9 in H2 by (apply after_tag_none; exact Q). cbn [outcome]. exists lb, j, m2. auto.
      + exact H.
      + exact H. }
  change (eval (S n) (Tagbody l) e s) with (tagbody L n l l e s). change (S n - height (Tagbody l)) with (n - S M). eapply LOOP; [apply Nat.le_refl|exact PL|exact I1|exact P1].
Qed.
End Loop.

(** *** Every form *)
Theorem all_sound : forall n, (forall k x, k <= n -> sound k x) /\ (forall k x, k <= n -> csound k x).
Proof.
  induction n as [|n (IH & IHc)].
  - split; intros k x H; replace k with 0 by lia; [apply sound0|apply csound0].
  - assert (I1 : forall x, sound n x) by (intro x; apply IH; lia). assert (I2 : forall x, csound n x) by (intro x; apply IHc; lia).
    assert (S1 : forall x, sound (S n) x).
    { intro x. destruct x; [apply const_sound|apply var_sound|apply setq_sound|apply progn_sound|apply if_sound|apply cond_sound|apply and_sound|apply or_sound|apply while_sound|apply let_sound|apply letstar_sound|
        apply block_sound|apply return_from_sound|apply tagbody_sound|apply go_sound|apply call_sound|apply null_sound|apply eq_sound|apply car_sound|apply cdr_sound|apply is_sound]; assumption. }
    split; intros k x H.
    + destruct (Nat.eq_dec k (S n)) as [->|NE]; [apply S1|apply IH; lia].
    + destruct (Nat.eq_dec k (S n)) as [->|NE]; [|apply IHc; lia]. eapply all_csound; eauto.
Qed.

(** *** The parameters *)
Definition argS (i : nat) (l : list nat) : list (nat * nat) := combine l (seq i (length l)).
Definition lexA (i : nat) (l : list nat) : ctx := rev (map (fun p => (fst p, InArg (snd p))) (filter (fun p => negb (special (fst p))) (argS i l))).
Definition nspe (l : list nat) : nat := length (filter special l).
Lemma param_step : forall is G fr c f Gp bnd k x r i u c' o, building special is G fr c f Gp bnd k 0 -> bind_params special (x :: r) i c = Some (u, c', o) ->
  exists c2 o2, bind_params special r (S i) c2 = Some (u, c', o2) /\ scope c2 = scope c /\ lab c2 = lab c /\ blocks c2 = blocks c /\ tags c2 = tags c /\
  if special x then o = flush c ++ [SW (CArg i); SBind x (depth c)] ++ o2 /\ building special is G fr c2 (setb x Special f) Gp (x :: bnd) (S k) 0 /\ push c2 = None /\ count c2 = depth c + 3 /\ unwinds c2 = i :: unwinds c
  else o = o2 /\ building special is G fr c2 (setb x (InArg i) f) ((x, InArg i) :: Gp) (x :: bnd) k 0 /\ push c2 = push c /\ count c2 = count c /\ unwinds c2 = unwinds c.
Proof.
  intros is G fr c f Gp bnd k x r i u c' o [HI HO HN HF HK] H. cbn [bind_params] in H. step H v1 c1 o1 B1. destruct (special x) eqn:SX.
  - apply (bind_spe_arg special) with (f := f) (r := is) in B1 as (s' & l' & fr' & E & -> & ->); [|exact SX|exact HI|rewrite HI; exact HO]. rewrite HF in E. injection E as <- <- <-.
    eexists; eexists. split; [exact H|]. cbn [scope lab blocks tags push count unwinds]. repeat (split; [reflexivity|]). split; [rewrite <- app_assoc; reflexivity|]. split; [|auto].
    split; auto; [apply okids_setb; [exact HO|tauto]|apply fok_spe; assumption].
  - apply (bind_lex_arg special) with (f := f) (r := is) in B1 as (-> & ->); [|exact SX|exact HI|rewrite HI; exact HO].
    eexists; eexists. split; [exact H|]. cbn [scope lab blocks tags push count unwinds]. repeat (split; [reflexivity|]). split; [|auto].
    split; auto; [apply okids_setb; [exact HO|split; [discriminate|congruence]]|apply fok_lex; [exact HK|exact SX|discriminate]].
Qed.
Lemma params_ct : forall is G fr l i c f Gp bnd k u c' o, building special is G fr c f Gp bnd k 0 -> bind_params special l i c = Some (u, c', o) ->
  exists f', building special is G fr c' f' (lexA i l ++ Gp) (rev l ++ bnd) (k + nspe l) 0 /\ scope c' = scope c /\ lab c' = lab c /\ blocks c' = blocks c /\ tags c' = tags c /\
    depth c' = depth c + 3 * nspe l /\ (push c = None -> push c' = None) /\ forall x, cnt x o = 0.
Proof.
  intros is G fr l; induction l as [|x r IHl]; intros i c f Gp bnd k u c' o HB H.
  - cbn [bind_params] in H. known. exists f. unfold nspe. cbn [filter length rev]. rewrite !Nat.add_0_r. split; [exact HB|]. do 4 (split; [reflexivity|]). split; [cbn; lia|]. split; [auto|reflexivity].
  - destruct (param_step _ _ _ _ _ _ _ _ _ _ _ _ _ _ HB H) as (c2 & o2 & H2 & S1 & S2 & S3 & S4 & X).
    assert (EA : lexA i (x :: r) = lexA (S i) r ++ (if special x then [] else [(x, InArg i)])).
    { unfold lexA, argS. cbn [length seq combine filter fst]. destruct (special x); cbn [rev negb map fst snd]; rewrite ?app_nil_r; reflexivity. }
    rewrite EA. unfold nspe. cbn [filter rev]. rewrite <- !app_assoc. destruct (special x); destruct X as (-> & HB2 & P & C & U).
    + destruct (IHl _ _ _ _ _ _ _ _ _ HB2 H2) as (f' & HB' & T1 & T2 & T3 & T4 & T5 & T6 & T7). exists f'. cbn [length]. fold (nspe r). rewrite app_nil_l, cons1.
      split; [replace (k + S (nspe r)) with (S k + nspe r) by lia; exact HB'|]. split; [congruence|]. split; [congruence|]. split; [congruence|]. split; [congruence|].
      split; [rewrite T5; unfold depth at 1, pending; rewrite P, C; lia|]. split; [intros _; apply T6, P|]. intro y. rewrite !cnt_app, cnt_flush, T7. reflexivity.
    + destruct (IHl _ _ _ _ _ _ _ _ _ HB2 H2) as (f' & HB' & T1 & T2 & T3 & T4 & T5 & T6 & T7). exists f'. fold (nspe r). rewrite !cons1.
      split; [exact HB'|]. split; [congruence|]. split; [congruence|]. split; [congruence|]. split; [congruence|].
      split; [rewrite T5; unfold depth at 1, pending; rewrite P, C; unfold depth, pending; lia|]. split; [intro Q; apply T6; congruence|exact T7].
Qed.
Lemma lay_arg : forall c c' G bs x i, lay c G bs -> ~ In (InArg i) (locals G) -> blocks c' = blocks c -> tags c' = tags c -> unwinds c' = unwinds c -> count c' = count c -> lay c' ((x, InArg i) :: G) bs.
Proof.
  intros c c' G bs x i HL HN EB ET EU HC. pose proof (lay_ext c c' G bs HL EB ET EU ltac:(lia)) as [A1 A2 A3 A4 A5 A6 A7]. split; auto.
  - intros k [H|H]; [discriminate|auto].
  - intros [H|H]; [discriminate|contradiction].
  - cbn [locals map]. constructor; assumption.
  - intros b k Hb [H|H]; [discriminate|auto].
Qed.
Lemma params_run : forall is G0 fr l i vs f Gp0 bnd k c c' u o G bs m e s sv post,
  building special is G0 fr c f Gp0 bnd k 0 -> bind_params special l i c = Some (u, c', o) -> push c = None -> (forall j, off c j -> j = 0) -> (forall j, In (InArg j) (locals G) -> j < i) ->
  lay c G bs -> inv G bs m e s -> length vs = length l -> (forall j, j < length l -> arg L m (i + j) = nth j vs NIL) ->
  exists m' bsp, reach (Running L (o ++ post) m) (Running L post m') /\ lay c' (lexA i l ++ G) (bsp ++ bs) /\
    let pairs := combine l vs in let r := fold_left bind1 (filter (fun p => CompLang.special L (fst p)) pairs) (gl L s, sv) in
    inv (lexA i l ++ G) (bsp ++ bs) m' (rev (filter (fun p => negb (CompLang.special L (fst p))) pairs) ++ e) (mkState L (fst r) (wd L s)) /\ saved bsp ++ sv = snd r /\ length bsp = nspe l.
Proof.
  intros is G0 fr l; induction l as [|x r IHl]; intros i vs f Gp0 bnd k c c' u o G bs m e s sv post HB H HP HO HG HL HI HV HA.
  - cbn [bind_params] in H. known. exists m, []. cbv zeta. cbn [combine filter fold_left fst snd rev]. split; [apply reach_refl|]. split; [exact HL|]. split; [destruct s; exact HI|]. auto.
  - destruct vs as [|v vs]; [discriminate|]. cbn [length] in HV. injection HV as HV.
    destruct (param_step _ _ _ _ _ _ _ _ _ _ _ _ _ _ HB H) as (c2 & o2 & H2 & S1 & S2 & S3 & S4 & X).
    assert (EA : lexA i (x :: r) = lexA (S i) r ++ (if special x then [] else [(x, InArg i)])).
    { unfold lexA, argS. cbn [length seq combine filter fst]. destruct (special x); cbn [rev negb map fst snd]; rewrite ?app_nil_r; reflexivity. }
    assert (AV : arg L m i = v) by (specialize (HA 0); rewrite Nat.add_0_r in HA; apply HA; cbn [length]; lia).
    assert (HO2 : forall j, off c2 j -> j = 0) by (intros j (y & lb & Hj); rewrite S3, S4 in Hj; apply HO; exists y, lb; exact Hj).
    cbv zeta. cbn [combine filter fst]. change (CompLang.special L x) with (special x). rewrite EA. unfold nspe. cbn [filter]. rewrite <- !app_assoc. destruct (special x); destruct X as (-> & HB2 & P & C & U).
    + cbn [negb fold_left length]. fold (nspe r). rewrite app_nil_l. assert (FL : flush c = []) by (unfold flush; rewrite HP; reflexivity). rewrite FL, app_nil_l.
      assert (DC : depth c = count c) by (unfold depth, pending; rewrite HP; lia).
      destruct (bind_run c G bs (set_w L m v) e s (depth c) x v) as (HI2 & EL2); [exact HL|lia|eapply inv_ext; [exact HL|exact HI|reflexivity..]|reflexivity|].
      set (m2 := bindspecial L (set_w L m v) x (depth c)) in *.
      assert (HL2 : lay c2 G ((depth c, (x, gl L s x)) :: bs)).
      { eapply (lay_spe c _ _ _ _ _ _ i); [exact HL|lia|rewrite C; lia|exact S3|exact S4|exact U| |]; intros j Hj; rewrite (HO j Hj); lia. }
      assert (HA2 : forall j, j < length r -> arg L m2 (S i + j) = nth j vs NIL).
      { intros j Hj. change (arg L m2 (S i + j)) with (arg L m (S i + j)). specialize (HA (S j)). cbn [nth length] in HA. rewrite <- HA by lia. f_equal. lia. }
      destruct (IHl (S i) vs _ _ _ _ c2 c' u o2 G _ m2 e _ ((x, gl L s x) :: sv) post HB2 H2 P HO2 (fun j Hj => le_S _ _ (HG j Hj)) HL2 HI2 HV HA2) as (m' & bsp & R1 & R2 & R3). cbv zeta in R3. destruct R3 as (R3 & R4 & R5).
      exists m', (bsp ++ [(depth c, (x, gl L s x))]). rewrite <- !app_assoc, cons1.
      split; [|split; [exact R2|split; [exact R3|split]]].
      * rewrite two. eapply reach_next; [cbn [CompModel.step]; unfold on; cbn [value]; rewrite AV; reflexivity|]. eapply reach_next; [reflexivity|]. exact R1.
      * unfold saved. rewrite map_app, <- app_assoc. exact R4.
      * rewrite app_length, R5. cbn [length]. lia.
    + cbn [negb rev]. fold (nspe r). rewrite <- app_assoc, !cons1.
      assert (HL2 : lay c2 ((x, InArg i) :: G) bs) by (eapply lay_arg; [exact HL|intro Hi; specialize (HG _ Hi); lia|exact S3|exact S4|exact U|exact C]).
      assert (HI2 : inv ((x, InArg i) :: G) bs m ((x, v) :: e) s).
      { destruct HI as (J1 & J2). split; [|exact J2]. constructor; [|exact J1]. split; [reflexivity|]. intros _. cbn [snd slot]. rewrite AV. reflexivity. }
      assert (HG2 : forall j, In (InArg j) (locals ((x, InArg i) :: G)) -> j < S i) by (intros j [E|Hj]; [injection E as <-; lia|specialize (HG _ Hj); lia]).
      assert (HA2 : forall j, j < length r -> arg L m (S i + j) = nth j vs NIL).
      { intros j Hj. specialize (HA (S j)). cbn [nth length] in HA. rewrite <- HA by lia. f_equal. lia. }
      assert (P2 : push c2 = None) by congruence.
      destruct (IHl (S i) vs _ _ _ _ c2 c' u o2 _ bs m _ s sv post HB2 H2 P2 HO2 HG2 HL2 HI2 HV HA2) as (m' & bsp & R1 & R2 & R3). cbv zeta in R3. destruct R3 as (R3 & R4 & R5).
      exists m', bsp. split; [exact R1|]. split; [exact R2|]. split; [exact R3|]. split; [exact R4|exact R5].
Qed.

(** *** A function *)
Definition c_fun (name : nat) : cst := mkCst None 0 1 [[]] 0 [(name, (1, 0))] [] [] [].
Definition c_body (name : nat) : cst := mkCst None 0 1 [[]; []] 1 [(name, (1, 0))] [] [] [(0, 0)].
Lemma lambda_parts : forall name params body u c code, lambda_block special name params body initial = Some (u, c, code) ->
  exists u1 c1 o1 u2 c2 o2, bind_params special params 0 (c_body name) = Some (u1, c1, o1) /\
    (progn comp body ;; set_unwinds [] ;; delete_frame) c1 = Some (u2, c2, o2) /\ code = SCheckArgs (length params) :: o1 ++ o2 ++ flush c2 ++ [SLabel 1; SReturn].
Proof.
  intros name params body u c code H. unfold lambda_block in H. step H blk c0 o0 B0. apply enter_block_inv in B0 as (-> & -> & ->). step H v1 c1 o1 B1. apply set_count_inv in B1 as (-> & ->).
  step H v2 c2 o2 B2. known. step H v3 c3 o3 B3. apply create_inv in B3 as (-> & ->). step H v4 c4 o4 B4. known. step H v5 c5 o5 B5. step H v6 c6 o6 B6. step H v7 c7 o7 B7. step H v8 c8 o8 B8.
  step H v9 c9 o9 B9. apply label_inv in B9 as (-> & ->). step H v10 c10 o10 B10. apply leave_block_inv in H as (-> & ->).
  exists v5, c5, o5, v8, c8, (o6 ++ o7 ++ o8). split; [exact B5|]. split.
  - change (set_unwinds [] c6 = Some (v7, c7, o7)) in B7. unfold bind, comp. rewrite B6, B7, B8. reflexivity.
  - unfold return_ in B10. step B10 w1 d1 p1 C1. known. step B10 w2 d2 p2 C2. known. step B10 w3 d3 p3 C3. known. apply set_count_inv in B10 as (-> & ->).
    change (flush initial) with (@nil stmt). change (flush (flat c8)) with (@nil stmt). rewrite ?app_nil_l, ?app_nil_r, <- ?app_assoc, !cons1. reflexivity.
Qed.
Lemma fun_building : forall name, building special [[]] [] [] (c_body name) [] [] [] 0 0.
Proof. intro name. split; try reflexivity; [intros f x i [<-|[<-|[]]]; discriminate|discriminate|apply fok_nil]. Qed.
Lemma fun_good : forall params x, In x params \/ special x = true -> In x (rev params ++ []) \/ good special [[]] [] 0 x.
Proof. intros params x [H|H]; [left; rewrite app_nil_r; apply -> in_rev; exact H|right]. unfold good. rewrite H. left. reflexivity. Qed.
Lemma compile_fresh : forall name params body code, compile special name params body = Some code -> forallb plain body = true ->
  (forall x, In x (flat_map fv body) -> In x params \/ special x = true) -> forall x, cnt x code <= 1.
Proof.
  intros name params body code H HP HF x. unfold compile in H. destruct (lambda_block special name params body initial) as [[[u c] code']|] eqn:E; [|discriminate]. injection H as ->.
  apply lambda_parts in E as (u1 & c1 & o1 & u2 & c2 & o2 & H1 & H2 & ->).
  destruct (params_ct _ _ _ _ _ _ _ _ _ _ _ _ _ (fun_building name) H1) as (f & HB & S1 & S2 & S3 & S4 & S5 & S6 & S7).
  destruct (let_end special _ _ _ _ _ _ _ _ _ _ _ _ _ _ HB S1 (fun y Hy => fun_good params y (HF y Hy)) (proj2 (Forall_forall _ _) (fun x _ => ctof x)) HP H2) as (v1 & c3 & o3 & B2 & -> & (K2 & F2 & D2) & A1 & ->).
  cbn [cnt]. rewrite !cnt_app, cnt_delete, cnt_flush, S7. cbn [cnt]. destruct (F2 x) as (F3 & F4). rewrite S2 in F4. cbn [lab c_body] in F4. destruct (Nat.eqb_spec 1 x); lia.
Qed.
Lemma catch_leave : forall b f g (o : option (out L V)), catch_block L b (leave L f g o) = leave L f g (catch_block L b o).
Proof. intros b f g [[a e s|b' v e s|t e s|]|]; try reflexivity. cbn [leave catch_block]. destruct (Nat.eqb b' b); reflexivity. Qed.
Lemma lexA_length : forall l i vs, length vs = length l -> length (lexA i l) = length (filter (fun p : nat * V => negb (CompLang.special L (fst p))) (combine l vs)).
Proof.
  intros l i vs. unfold lexA, argS. rewrite rev_length, map_length. revert i vs. induction l as [|x r IHl]; intros i [|v vs] H; try discriminate; [reflexivity|].
  cbn [length] in H. injection H as H. cbn [length seq combine filter fst]. change (CompLang.special L x) with (special x). destruct (special x); cbn [negb length]; rewrite (IHl (S i) vs H); reflexivity.
Qed.
Theorem function_run : forall n name params body args s, compile special name params body = Some prog -> forallb plain body = true ->
  (forall x, In x (flat_map fv body) -> In x params \/ special x = true) ->
  match eval_function L n name params body args s with
  | None => exists k code m, n - list_max (map height body) <= k /\ steps k (Running L prog (start L args (gl L s) (wd L s))) = Running L code m
  | Some (Normal v e' s') => exists m, reach (Running L prog (start L args (gl L s) (wd L s))) (Returned L v m) /\ mgl L m = gl L s' /\ mwd L m = wd L s' /\ bfp L m = None
  | Some Err => reach (Running L prog (start L args (gl L s) (wd L s))) (Failed L)
  | Some (Exit _ _ _ _) | Some (Jump _ _ _) => False
  end.
Proof.
  intros n name params body args s H HP HF. unfold compile in H. destruct (lambda_block special name params body initial) as [[[u c] code']|] eqn:E; [|discriminate]. injection H as ->.
  apply lambda_parts in E as (u1 & c1 & o1 & u2 & c2 & o2 & H1 & H2 & EP). set (m0 := start L args (gl L s) (wd L s)).
  assert (ST : CompModel.step L prog prog m0 = if Nat.eqb (length args) (length params) then Running L (o1 ++ o2 ++ flush c2 ++ [SLabel 1; SReturn]) m0 else Failed L) by (rewrite EP; reflexivity).
  unfold eval_function. destruct (Nat.eqb (length args) (length params)) eqn:EL.
  2: { exists 1. cbn [CompModel.steps]. exact ST. }
  apply Nat.eqb_eq in EL.
  assert (R0 : reach (Running L prog m0) (Running L (o1 ++ o2 ++ flush c2 ++ [SLabel 1; SReturn]) m0)) by (exists 1; exact ST).
  destruct (params_ct _ _ _ _ _ _ _ _ _ _ _ _ _ (fun_building name) H1) as (f & HB & S1 & S2 & S3 & S4 & S5 & S6 & S7).
  pose proof (let_end special _ _ _ _ _ _ _ _ _ _ _ _ _ _ HB S1 (fun y Hy => fun_good params y (HF y Hy)) (proj2 (Forall_forall _ _) (fun x _ => ctof x)) HP H2) as (v1 & c3 & o3 & B2 & E2 & (K2 & F2 & D2) & A1 & E3).
  assert (LO : forall c0, blocks c0 = [(name, (1, 0))] -> tags c0 = [] -> forall j, off c0 j -> j = 0).
  { intros c0 EB ET j (y & lb & Hj). rewrite EB, ET in Hj. cbn [assq] in Hj. destruct Hj as [Hj|Hj]; [|discriminate]. destruct (Nat.eqb name y); [congruence|discriminate]. }
  assert (L0 : forall c0, blocks c0 = [(name, (1, 0))] -> tags c0 = [] -> lay c0 [] []).
  { intros c0 EB ET. split; try (intros; contradiction); [auto|constructor|exact I|]. intros j Hj. rewrite (LO c0 EB ET j Hj). lia. }
  destruct (params_run _ _ _ params 0 args _ _ _ _ (c_body name) c1 u1 o1 [] [] m0 [] s [] (o2 ++ flush c2 ++ [SLabel 1; SReturn]) (fun_building name) H1 eq_refl (LO (c_body name) eq_refl eq_refl) (fun j Hj => False_ind _ Hj) (L0 (c_body name) eq_refl eq_refl))
    as (m1 & bsp & R1 & R2 & R3).
  { split; [constructor|]. split; [reflexivity|]. split; reflexivity. }
  { exact EL. }
  { reflexivity. }
  cbv zeta in R3. destruct R3 as (R3 & R4 & R5). rewrite !app_nil_r in *.
  cbv zeta. rewrite bind_specials_left, rev_involutive. rewrite <- catch_leave, <- (lexA_length params 0 args EL), <- R4.
  assert (P1 : push c1 = None) by (apply S6; reflexivity).
  match goal with R : inv _ _ m1 ?e1 ?s1 |- _ => set (E1 := e1) in *; set (T1 := s1) in * end.
  assert (X : outcome [(name, (1, 0))] [] [] [] (loc L m1) (Running L (o2 ++ flush c2 ++ [SLabel 1; SReturn]) m1) (n - list_max (map height body))
    (leave L (skipn (length (lexA 0 params))) (restore (saved bsp)) (ev_progn L (eval n) body E1 T1)) (top c2 [] [] 0 (loc L m1) (flush c2 ++ [SLabel 1; SReturn]))).
  { pose proof (body_run n (fun x => proj1 (all_sound n) n x (Nat.le_refl n)) (c_fun name) c1 c2 [] [] (lexA 0 params) bsp body u2 [] o2 f (rev params) (nspe params) 0 m1 E1 T1 (loc L m1) (flush c2 ++ [SLabel 1; SReturn]) (n - list_max (map height body))) as X.
    rewrite !app_nil_r in X. apply X; auto.
    - intros x Hx. pose proof (fun_good params x (HF x Hx)) as HG. rewrite app_nil_r in HG. exact HG.
    - exists (SCheckArgs (length params) :: o1). exact EP.
    - unfold pend. rewrite P1. exact I.
    - rewrite S5. change (depth (c_fun name)) with 0. change (depth (c_body name)) with 0. lia.
    - intros k _. apply Nat.le_0_l.
    - intros b _. apply Nat.le_0_l.
    - intros i Hi. change (depth (c_fun name)) with 0 in Hi. lia.
    - intros a Ha. pose proof (list_max_in _ height body a Ha). lia. }
  rewrite <- (obind_ret _ (leave L (skipn (length (lexA 0 params))) (restore (saved bsp)) (ev_progn L (eval n) body E1 T1))).
  assert (EN : forall k v e m, inv [] [] m e k -> loc L m 0 = Cell v -> reach (Running L [SReturn] m) (Returned L v m) /\ mgl L m = gl L k /\ mwd L m = wd L k /\ bfp L m = None).
  { intros k v e m (J1 & J2 & J3 & J4) HV. split; [|auto]. exists 1. cbn [CompModel.steps CompModel.step]. rewrite HV. reflexivity. }
  assert (Y : outcome [] [] [] [] (loc L m1) (Running L prog m0) (n - list_max (map height body))
    (catch_block L name (obind L (leave L (skipn (length (lexA 0 params))) (restore (saved bsp)) (ev_progn L (eval n) body E1 T1)) (fun a e k => Some (Normal a e k))))
    (fun v _ k c => exists m, reach c (Returned L v m) /\ mgl L m = gl L k /\ mwd L m = wd L k /\ bfp L m = None)).
  { eapply out_reach; [eapply reach_trans; [exact R0|exact R1]|]. eapply out_catch_bind; [exact X|apply Nat.le_refl|..].
    - intros v e k cc (m & -> & J1 & J2 & J3). cbn [catch_block].
      assert (Z : outcome [] [] [] [] (loc L m1) (Running L (flush c2 ++ [SLabel 1; SReturn]) m) (n - list_max (map height body)) (Some (Normal v e k)) (top (c_fun name) [] [] 0 (loc L m1) [SReturn])).
      { apply label_end; auto.
        replace (depth c2) with (depth c1 - (3 * (0 + nspe params) + 0) + 1) by (rewrite E3; reflexivity). rewrite S5. change (depth (c_body name)) with 0. lia.
        apply L0; rewrite E3; assumption. }
      destruct Z as (cc & Z1 & (m' & -> & Z2 & Z3 & Z4)). eapply out_normal; [exact Z1|]. exists m'. apply (EN k v e); [exact Z2|exact Z3].
    - intros v e k m J1 J2. destruct (rel_inv (c_fun name) [] [] _ m e k 0 (L0 (c_fun name) eq_refl eq_refl) (Nat.le_refl 0) J2) as (J3 & J4).
      rewrite (goto_here 1 [SReturn]); [|exists (SCheckArgs (length params) :: o1 ++ o2 ++ flush c2); rewrite EP, <- app_comm_cons, <- !app_assoc; reflexivity].
      eapply out_normal; [apply reach_refl|]. exists m. apply (EN k v e); [exact J3|exact J1]. }
  clear X. destruct (catch_block L name _) as [[v e k|b v e k|t e k|]|]; cbn [outcome] in Y.
  - destruct Y as (cc & Y1 & m & Y2 & Y3). exists m. split; [eapply reach_trans; [exact Y1|exact Y2]|exact Y3].
  - destruct Y as (lb & j & m & _ & Y & _). discriminate.
  - destruct Y as (lb & j & m & _ & Y & _). discriminate.
  - exact Y.
  - exact Y.
Qed.

(** The compiler accepts the function *)
Lemma params_tot : forall is G fr l i c f Gp bnd k, building special is G fr c f Gp bnd k 0 -> ok (bind_params special l i) c.
Proof.
  intros is G fr l; induction l as [|x r IHl]; intros i c f Gp bnd k HB; [apply ok_ret|]. cbn [bind_params].
  assert (HX : ok (bind_var special x true i) c).
  { apply ok_bind_var; [rewrite (bu_ids _ _ _ _ _ _ _ _ _ _ HB); discriminate|rewrite (bu_frames _ _ _ _ _ _ _ _ _ _ HB); discriminate|left; reflexivity]. }
  apply ok_bind; [exact HX|]. intros u c1 o1 B1.
  assert (H1 : exists o2, bind_params special [x] i c = Some (tt, c1, o2)) by (cbn [bind_params]; unfold bind; rewrite B1; cbn; eauto). destruct H1 as (o2 & H1).
  destruct (param_step _ _ _ _ _ _ _ _ _ _ _ _ _ _ HB H1) as (c2 & o3 & H2 & S1 & S2 & S3 & S4 & X). cbn [bind_params] in H2. apply ret_inv in H2 as (_ & -> & _).
  destruct (special x); destruct X as (_ & HB2 & _); eapply IHl; exact HB2.
Qed.
Lemma compile_total : forall name params body, forallb plain body = true ->
  (forall x, In x (flat_map fv body) -> In x params \/ special x = true) -> forallb (scoped [name] []) body = true -> exists code, compile special name params body = Some code.
Proof.
  intros name params body HP HF HS. unfold compile. enough (H : ok (lambda_block special name params body) initial) by (destruct H as ([[u c] code] & H); rewrite H; eauto).
  unfold lambda_block. apply ok_bind; [apply ok_enter_block|]. intros blk c0 o0 B0. apply enter_block_inv in B0 as (-> & -> & ->). apply ok_bind; [apply ok_count|]. intros v1 c1 o1 B1. apply set_count_inv in B1 as (-> & ->).
  apply ok_bind; [apply ok_get|]. intros v2 c2 o2 B2. known. apply ok_bind; [unfold ok; cbn; eauto|]. intros v3 c3 o3 B3. apply create_inv in B3 as (-> & ->). apply ok_bind; [apply ok_emit|]. intros v4 c4 o4 B4. known.
  match goal with |- ok _ ?d => change d with (c_body name) end.
  apply ok_bind; [eapply params_tot, fun_building|]. intros v5 c5 o5 B5. destruct (params_ct _ _ _ _ _ _ _ _ _ _ _ _ _ (fun_building name) B5) as (f & HB & S1 & S2 & S3 & S4 & S5 & S6 & S7).
  assert (PL : places c5 [name] []).
  { split; [|discriminate]. intros n Hn. rewrite S3. cbn in Hn. rewrite orb_false_r in Hn. apply Nat.eqb_eq in Hn as ->. cbn. rewrite Nat.eqb_refl. eauto. }
  assert (HT : ok (progn comp body ;; set_unwinds [] ;; delete_frame) c5).
  { eapply let_end_tot; [exact HB|exact S1|exact (fun y Hy => fun_good params y (HF y Hy))|apply Forall_forall; intros y _; apply comp_total|exact HP|exact PL|exact HS]. }
  destruct HT as ([[u c6] o6] & HT). step HT v6 c7 o7 B6. step HT v7 c8 o8 B7. apply ok_bind; [exists (v6, c7, o7); exact B6|]. intros a6 d6 p6 A6. change (progn comp body c5 = Some (a6, d6, p6)) in A6. rewrite B6 in A6. injection A6 as <- <- <-.
  apply ok_bind; [unfold ok, set_unwinds; eauto|]. intros a7 d7 p7 A7. change (set_unwinds [] c7 = Some (a7, d7, p7)) in A7. rewrite B7 in A7. injection A7 as <- <- <-.
  apply ok_bind; [match type of HT with _ = Some (?x) => exists x end; exact HT|]. intros a8 d8 p8 A8.
  apply ok_bind; [apply ok_label|]. intros. apply ok_bind; [|intros; apply ok_leave_block].
  apply ok_bind; [apply ok_clear|]. intros. apply ok_bind; [apply ok_emit|]. intros. apply ok_bind; [apply ok_get|]. intros. apply ok_count.
Qed.
End Dynamic.
