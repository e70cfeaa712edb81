(** The machine of ControlModel computes the meaning [as_coded]. *)
From Verif Require Import ControlModel ControlSpec.

(** ** The live frames *)
Inductive item := IS (x : nat) (old : word) | IC (t : word) | IB (lx : bool) (nm : option nat) | IP (c : exp).
Inductive kind := KS | KC | KB | KP.
Definition kindof (i : item) : kind := match i with IS _ _ => KS | IC _ => KC | IB _ _ => KB | IP _ => KP end.
Definition keqb (a b : kind) : bool :=
  match a, b with KS, KS | KC, KC | KB, KB | KP, KP => true | _, _ => false end.
Lemma keqb_spec a b : keqb a b = true <-> a = b.
Proof. destruct a, b; cbn; split; congruence. Qed.
Definition live := list (nat * item).

Fixpoint first (k : kind) (l : live) : nat :=
  match l with [] => 0 | (a, i) :: r => if keqb (kindof i) k then a else first k r end.
Definition frame_of (i : item) (r : live) : frame :=
  match i with
  | IS x old => FSpecial (first KS r) x old
  | IC t => FCatch (first KC r) t
  | IB lx nm => FBlock (first KB r) (if lx then first KB r else 0) nm
  | IP c => FProtect (first KP r) c
  end.
Definition below (v : nat) (l : live) : Prop := Forall (fun x => fst x < v) l.
Fixpoint chain (m : nat -> frame) (l : live) : Prop :=
  match l with
  | [] => True
  | (a, i) :: r => 1 <= a /\ m a = frame_of i r /\ below a r /\ chain m r
  end.
Definition inv (s : ctx) (l : live) : Prop :=
  sb s = first KS l /\ ca s = first KC l /\ bl s = first KB l /\ pr s = first KP l /\
  chain (mem s) l /\ below (vsp s) l /\ 1 <= vsp s.
Definition st_of (s : ctx) : state := (spec s, out s).

Fixpoint tags (l : live) : list word :=
  match l with [] => [] | (_, IC t) :: r => t :: tags r | _ :: r => tags r end.
Fixpoint lexnames (l : live) : list nat :=
  match l with
  | [] => []
  | (_, IB lx nm) :: r => (match nm with Some n => [n] | None => [] end) ++ (if lx then lexnames r else [])
  | _ :: r => lexnames r
  end.

Lemma below_le v w l : below v l -> v <= w -> below w l.
Proof. intros H L. eapply Forall_impl; [|exact H]. cbn. intros a K. lia. Qed.
Lemma first_below k v l : 1 <= v -> below v l -> first k l < v.
Proof.
  intros V. induction l as [|[a i] r IH]; intros B; cbn [first]; [lia|]. inversion B; subst.
  destruct (keqb _ _); [assumption|auto].
Qed.
Lemma upd_same {A} (f : nat -> A) i x : upd f i x i = x.
Proof. unfold upd. rewrite Nat.eqb_refl. reflexivity. Qed.
Lemma upd_other {A} (f : nat -> A) i x j : j <> i -> upd f i x j = f j.
Proof. intros N. unfold upd. destruct (Nat.eqb_spec j i); [contradiction|reflexivity]. Qed.

Lemma chain_upd m l v fr : chain m l -> below v l -> chain (upd m v fr) l.
Proof.
  induction l as [|[a i] r IH]; intros C B; [exact Logic.I|]. cbn [chain] in *. inversion B as [|? ? Ba Br]; subst. cbn [fst] in Ba.
  destruct C as (C1 & C2 & C3 & C4). rewrite upd_other by lia. auto.
Qed.
Lemma chain_app m a b : chain m (a ++ b) -> chain m b.
Proof. induction a as [|[x i] a IH]; cbn [app chain]; [auto|]. intros (_ & _ & _ & C). auto. Qed.
Lemma below_app v a b : below v (a ++ b) <-> below v a /\ below v b.
Proof. apply Forall_app. Qed.

Lemma inv_push s l i s' : inv s l ->
  mem s' = upd (mem s) (vsp s) (frame_of i l) -> vsp s < vsp s' ->
  sb s' = (if keqb (kindof i) KS then vsp s else sb s) -> ca s' = (if keqb (kindof i) KC then vsp s else ca s) ->
  bl s' = (if keqb (kindof i) KB then vsp s else bl s) -> pr s' = (if keqb (kindof i) KP then vsp s else pr s) ->
  inv s' ((vsp s, i) :: l).
Proof.
  intros (I1 & I2 & I3 & I4 & I5 & I6 & I7) M V E1 E2 E3 E4.
  unfold inv. cbn [first chain]. rewrite E1, E2, E3, E4, I1, I2, I3, I4. repeat (split; [reflexivity|]).
  split; [|split; [|lia]].
  - split; [exact I7|]. split; [rewrite M, upd_same; reflexivity|]. split; [exact I6|]. rewrite M. apply chain_upd; assumption.
  - constructor; [exact V|]. eapply below_le; [exact I6|lia].
Qed.

Lemma inv_same_regs s l s' : inv s l -> mem s' = mem s -> sb s' = sb s -> ca s' = ca s -> bl s' = bl s -> pr s' = pr s ->
  vsp s <= vsp s' -> inv s' l.
Proof.
  intros (I1 & I2 & I3 & I4 & I5 & I6 & I7) M E1 E2 E3 E4 V. unfold inv. rewrite M, E1, E2, E3, E4.
  repeat (split; [assumption|]). split; [eapply below_le; eassumption|lia].
Qed.

(** ** Leaving part of the stack *)
Definition pendof (l : live) : list (nat * word) :=
  flat_map (fun x => match snd x with IS y o => [(y, o)] | _ => [] end) l.

Lemma pendof_app a b : pendof (a ++ b) = pendof a ++ pendof b.
Proof. apply flat_map_app. Qed.

Lemma restore_app a : forall b s, restore (a ++ b) s = restore b (restore a s).
Proof. induction a as [|[x o] a IH]; intros b s; [reflexivity|]. cbn [app restore]. apply IH. Qed.
Lemma restore_snd a : forall s, snd (restore a s) = snd s.
Proof. induction a as [|[x o] a IH]; intros s; [reflexivity|]. cbn [restore]. rewrite IH. reflexivity. Qed.

Lemma unbind_ok a j l : kindof j <> KS -> forall M n s, chain (mem s) (M ++ (a, j) :: l) ->
  sb s = first KS (M ++ (a, j) :: l) -> sb s < n ->
  unbind_loop n a s = Some (mkCtx (vsp s) (first KS l) (ca s) (bl s) (pr s) (mem s) (fst (restore (pendof M) (st_of s))) (out s)).
Proof.
  intros Kj. induction M as [|[a' i] M IH]; intros n s C E N.
  - cbn [app first chain] in *. destruct C as (C1 & _ & C3 & _).
    assert (F : keqb (kindof j) KS = false) by (destruct (keqb (kindof j) KS) eqn:X; [apply keqb_spec in X; contradiction|reflexivity]).
    rewrite F in E. pose proof (first_below KS a l C1 C3) as B.
    destruct n as [|n]; [lia|]. cbn [unbind_loop]. destruct (Nat.leb_spec a (sb s)); [lia|].
    rewrite <- E. destruct s; reflexivity.
  - cbn [app first chain] in C, E. destruct C as (C1 & C2 & C3 & C4). destruct i as [x o|t|lx nm|c]; cbn [kindof keqb] in E.
    + destruct n as [|n]; [lia|]. cbn [unbind_loop].
      assert (La : a < a') by (apply below_app in C3; destruct C3 as [_ C3]; inversion C3; subst; assumption).
      destruct (Nat.leb_spec a (sb s)); [|lia]. rewrite E, C2. cbn [frame_of].
      rewrite IH; [reflexivity|exact C4|reflexivity|]. cbn [sb].
      pose proof (first_below KS a' _ C1 C3). lia.
    + rewrite (IH n s C4 E N). reflexivity.
    + rewrite (IH n s C4 E N). reflexivity.
    + rewrite (IH n s C4 E N). reflexivity.
Qed.

Lemma unbindspecial_loop s a : 1 <= a -> unbindspecial s a = unbind_loop (S (sb s)) a s.
Proof.
  intros A. unfold unbindspecial. destruct (Nat.eqb_spec (sb s) 0) as [E|E]; [|reflexivity].
  rewrite E. cbn [unbind_loop]. rewrite E. destruct (Nat.leb_spec a 0); [lia|reflexivity].
Qed.

Lemma pop_blocks_ok a j l : forall M n s, chain (mem s) (M ++ (a, j) :: l) ->
  bl s = first KB (M ++ (a, j) :: l) -> bl s < n ->
  pop_blocks n a s = Some (set_bl s (first KB ((a, j) :: l))).
Proof.
  induction M as [|[a' i] M IH]; intros n s C E N.
  - cbn [app] in *. destruct n as [|n]; [lia|]. cbn [pop_blocks]. destruct C as (C1 & _ & C3 & _).
    assert (B : first KB ((a, j) :: l) <= a).
    { cbn [first]. destruct (keqb _ _); [lia|]. pose proof (first_below KB a l C1 C3). lia. }
    destruct (Nat.ltb_spec a (bl s)); [lia|]. rewrite <- E. destruct s; reflexivity.
  - cbn [app first chain] in C, E. destruct C as (C1 & C2 & C3 & C4). destruct i as [x o|t|lx nm|c]; cbn [kindof keqb] in E.
    + apply IH; assumption.
    + apply IH; assumption.
    + destruct n as [|n]; [lia|]. cbn [pop_blocks].
      assert (La : a < a') by (apply below_app in C3; destruct C3 as [_ C3]; inversion C3; subst; assumption).
      destruct (Nat.ltb_spec a (bl s)); [|lia]. rewrite E, C2. cbn [frame_of].
      rewrite IH; [reflexivity|exact C4|reflexivity|]. cbn [set_bl bl].
      pose proof (first_below KB a' _ C1 C3). lia.
    + apply IH; assumption.
Qed.
Lemma pop_catches_ok a j l : forall M n s, chain (mem s) (M ++ (a, j) :: l) ->
  ca s = first KC (M ++ (a, j) :: l) -> ca s < n ->
  pop_catches n a s = Some (set_ca s (first KC ((a, j) :: l))).
Proof.
  induction M as [|[a' i] M IH]; intros n s C E N.
  - cbn [app] in *. destruct n as [|n]; [lia|]. cbn [pop_catches]. destruct C as (C1 & _ & C3 & _).
    assert (B : first KC ((a, j) :: l) <= a).
    { cbn [first]. destruct (keqb _ _); [lia|]. pose proof (first_below KC a l C1 C3). lia. }
    destruct (Nat.ltb_spec a (ca s)); [lia|]. rewrite <- E. destruct s; reflexivity.
  - cbn [app first chain] in C, E. destruct C as (C1 & C2 & C3 & C4). destruct i as [x o|t|lx nm|c]; cbn [kindof keqb] in E.
    + apply IH; assumption.
    + destruct n as [|n]; [lia|]. cbn [pop_catches].
      assert (La : a < a') by (apply below_app in C3; destruct C3 as [_ C3]; inversion C3; subst; assumption).
      destruct (Nat.ltb_spec a (ca s)); [|lia]. rewrite E, C2. cbn [frame_of].
      rewrite IH; [reflexivity|exact C4|reflexivity|]. cbn [set_ca ca].
      pose proof (first_below KC a' _ C1 C3). lia.
    + apply IH; assumption.
    + apply IH; assumption.
Qed.

Lemma first_skip k M l : Forall (fun x => kindof (snd x) <> k) M -> first k (M ++ l) = first k l.
Proof.
  induction 1 as [|[a i] M H _ IH]; [reflexivity|]. cbn [app first]. cbn [snd] in H.
  destruct (keqb (kindof i) k) eqn:E; [apply keqb_spec in E; contradiction|exact IH].
Qed.

Section Proofs.
Variable P : nat -> exp.

(** What unwind does when no protect frame is left above the target. *)
Lemma unwind_done s M a j l : inv s (M ++ (a, j) :: l) -> Forall (fun x => kindof (snd x) <> KP) M ->
  kindof j <> KP -> kindof j <> KS ->
  exists s2, (forall f, 1 <= f -> unwind P f s a = MVal NILw s2) /\ inv s2 ((a, j) :: l) /\
    st_of s2 = restore (pendof M) (st_of s) /\ vsp s2 = vsp s.
Proof.
  intros (I1 & I2 & I3 & I4 & I5 & I6 & I7) NP KP' KS'.
  pose proof (chain_app _ _ _ I5) as C. cbn [chain] in C. destruct C as (C1 & C2 & C3 & C4).
  assert (Pr : pr s < a).
  { rewrite I4, (first_skip KP M _ NP). cbn [first].
    destruct (keqb (kindof j) KP) eqn:E; [apply keqb_spec in E; contradiction|]. apply first_below; assumption. }
  eexists. split; [|split; [|split]].
  - intros f Hf. destruct f as [|f]; [lia|]. cbn [unwind]. destruct (Nat.leb_spec a (pr s)); [lia|].
    rewrite unbindspecial_loop by exact C1. rewrite (unbind_ok a j l KS' M (S (sb s)) s I5 I1) by lia.
    rewrite (pop_blocks_ok a j l M); [|exact I5|exact I3|cbn [bl]; lia].
    rewrite (pop_catches_ok a j l M); [|exact I5|exact I2|cbn [ca set_bl]; lia]. reflexivity.
  - unfold inv. cbn [set_ca set_bl sb ca bl pr mem vsp]. split; [|split; [|split; [|split; [|split; [|split]]]]].
    + cbn [first]. destruct (keqb (kindof j) KS) eqn:E; [apply keqb_spec in E; contradiction|reflexivity].
    + reflexivity.
    + reflexivity.
    + rewrite I4, (first_skip KP M _ NP). reflexivity.
    + apply (chain_app _ M). exact I5.
    + apply below_app in I6. exact (proj2 I6).
    + exact I7.
  - cbn [set_ca set_bl st_of spec out]. unfold st_of. cbn [spec out].
    rewrite (surjective_pairing (restore (pendof M) (spec s, out s))), restore_snd. reflexivity.
  - reflexivity.
Qed.

(** ** What a run of the machine must be *)
Definition eventually (g : nat -> res) (r : res) : Prop := exists F, forall f, F <= f -> g f = r.
Definition reg (K : kind) (s : ctx) : nat := match K with KC => ca s | KB => bl s | KS => sb s | KP => pr s end.
Definition drop (K : kind) (l : live) : live := filter (fun x => negb (keqb (kindof (snd x)) K)) l.

Definition exits (K : kind) (g : nat -> res) (l : live) (w : word) (pend : list (nat * word)) (st' : state)
  (Q : live -> item -> Prop) : Prop :=
  exists s1 M l1 p i l2, l = l1 ++ (p, i) :: l2 /\ kindof i = K /\ Q l1 i /\
    inv s1 (M ++ drop K l1 ++ (p, i) :: l2) /\
    Forall (fun x => kindof (snd x) <> KP /\ kindof (snd x) <> K) M /\ pendof M = pend /\ st_of s1 = st' /\
    (forall s2, eventually (fun f => unwind P f s1 p) (MVal NILw s2) -> reg K s2 = p -> eventually g (MJump p w s2)) /\
    (forall r, match r with MErr _ => True | MJump q _ _ => q <= p | _ => False end ->
       eventually (fun f => unwind P f s1 p) r -> eventually g r).

Definition count_catches (l : live) : nat := length (tags l).
Definition block_target (n : nat) (l1 : live) (i : item) : Prop :=
  (exists lx, i = IB lx (Some n)) /\
  Forall (fun x => match snd x with IB lx nm => lx = true /\ nm <> Some n | _ => True end) l1.
Definition ret_word (v : word) : word := if Z.eqb v (int_word 0) then zero_flonum else v.

Definition does (g : nat -> res) (v0 : nat) (l : live) (T : list word) (L : list nat) (o : outcome) (st' : state) : Prop :=
  match o with
  | RVal v => exists s', eventually g (MVal v s') /\ inv s' l /\ vsp s' = v0 /\ st_of s' = st'
  | RThrow k v pend => exits KC g l v pend st' (fun l1 _ => count_catches l1 = k)
  | RReturn n v pend => exits KB g l (ret_word v) pend st' (block_target n)
  | RErr => T = tags l -> L = lexnames l -> exists s', eventually g (MErr s') /\ st_of s' = st'
  end.

Lemma eventually_S (g g' : nat -> res) r : eventually g r -> (exists F, forall f, F <= f -> g f = r -> g' (S f) = r) -> eventually g' r.
Proof.
  intros [F1 H1] [F2 H2]. exists (S (F1 + F2)). intros [|f] Hf; [lia|]. apply H2; [lia|]. apply H1. lia.
Qed.
Lemma eventually_S2 (g g' : nat -> res) r r' : eventually g r -> (exists F, forall f, F <= f -> g f = r -> g' (S f) = r') -> eventually g' r'.
Proof.
  intros [F1 H1] [F2 H2]. exists (S (F1 + F2)). intros [|f] Hf; [lia|]. apply H2; [lia|]. apply H1. lia.
Qed.

(** When the rest of a form hands on everything but values. *)
Definition hands_on (g g' : nat -> res) : Prop :=
  exists F, forall f, F <= f -> match g f with MJump _ _ _ | MErr _ => g' (S f) = g f | _ => True end.
Definition same (g g' : nat -> res) : Prop := exists F, forall f, F <= f -> g' (S f) = g f.

Lemma exits_hands K g g' l w pend st' Q : exits K g l w pend st' Q -> hands_on g g' -> exits K g' l w pend st' Q.
Proof.
  intros (s1 & M & l1 & p & i & l2 & E & Ki & Qi & Iv & Cl & Pe & St & Go & Go2) [F H].
  exists s1, M, l1, p, i, l2. repeat (split; [assumption|]). split.
  - intros s2 U R. specialize (Go s2 U R).
    eapply eventually_S; [exact Go|]. exists F. intros f Hf E1. specialize (H f Hf). rewrite E1 in H. exact H.
  - intros r Hr U. specialize (Go2 r Hr U).
    eapply eventually_S; [exact Go2|]. exists F. intros f Hf E1. specialize (H f Hf). rewrite E1 in H.
    destruct r; try contradiction; exact H.
Qed.
Lemma does_hands g g' v0 v1 l T L o st' : does g v0 l T L o st' -> no_value o -> hands_on g g' -> does g' v1 l T L o st'.
Proof.
  intros D N H. destruct o as [v|k v pend|n v pend|]; cbn [does no_value] in *.
  - contradiction.
  - eapply exits_hands; eassumption.
  - eapply exits_hands; eassumption.
  - intros E1 E2. destruct (D E1 E2) as (s' & Ev & St). exists s'. split; [|exact St]. destruct H as [F H].
    eapply eventually_S; [exact Ev|]. exists F. intros f Hf E. specialize (H f Hf). rewrite E in H. exact H.
Qed.
Lemma does_same g g' v0 l T L o st' : does g v0 l T L o st' -> same g g' -> does g' v0 l T L o st'.
Proof.
  intros D [F H]. destruct o as [v|k v pend|n v pend|].
  - destruct D as (s' & Ev & R). exists s'. split; [|exact R].
    eapply eventually_S; [exact Ev|]. exists F. intros f Hf E. rewrite (H f Hf). exact E.
  - eapply exits_hands; [exact D|]. exists F. intros f Hf. rewrite (H f Hf). destruct (g f); auto.
  - eapply exits_hands; [exact D|]. exists F. intros f Hf. rewrite (H f Hf). destruct (g f); auto.
  - intros E1 E2. destruct (D E1 E2) as (s' & Ev & R). exists s'. split; [|exact R].
    eapply eventually_S; [exact Ev|]. exists F. intros f Hf E. rewrite (H f Hf). exact E.
Qed.

(** When a frame was pushed at [a]: jumps elsewhere are handed on. *)
Definition passes (a : nat) (g g' : nat -> res) : Prop :=
  exists F, forall f, F <= f -> match g f with MJump p _ _ => p <> a -> g' (S f) = g f | MErr _ => g' (S f) = g f | _ => True end.

Lemma exits_push K g g' a j l w pend st' (Q Q' : live -> item -> Prop) :
  exits K g ((a, j) :: l) w pend st' Q -> kindof j <> K -> kindof j <> KP -> passes a g g' ->
  (forall l1 i, Q ((a, j) :: l1) i -> Q' l1 i) -> exits K g' l w (pend ++ pendof [(a, j)]) st' Q'.
Proof.
  intros (s1 & M & l1 & p & i & l2 & E & Ki & Qi & Iv & Cl & Pe & St & Go & Go2) N1 N2 [F H] HQ.
  destruct l1 as [|x l1].
  { cbn [app] in E. inversion E; subst. contradiction. }
  cbn [app] in E. inversion E; subst x l; clear E.
  assert (D : drop K ((a, j) :: l1) = (a, j) :: drop K l1).
  { unfold drop. cbn [filter snd]. destruct (keqb (kindof j) K) eqn:X; [apply keqb_spec in X; contradiction|reflexivity]. }
  exists s1, (M ++ [(a, j)]), l1, p, i, l2. split; [reflexivity|]. split; [assumption|]. split; [apply HQ; exact Qi|].
  split. { rewrite D in Iv. rewrite <- app_assoc. exact Iv. }
  split. { apply Forall_app. split; [exact Cl|]. constructor; [cbn [snd]; auto|constructor]. }
  split. { rewrite pendof_app, Pe. reflexivity. }
  split; [exact St|].
  assert (Na : p < a).
  { destruct Iv as (_ & _ & _ & _ & C & _). rewrite D in C. apply chain_app in C. cbn [app chain] in C.
    destruct C as (_ & _ & B & _). apply below_app in B. destruct B as [_ B]. inversion B; subst. cbn [fst] in *. lia. }
  split.
  - intros s2 U R. specialize (Go s2 U R).
    eapply eventually_S; [exact Go|]. exists F. intros f Hf E1. specialize (H f Hf). rewrite E1 in H. apply H. lia.
  - intros r Hr U. specialize (Go2 r Hr U).
    eapply eventually_S; [exact Go2|]. exists F. intros f Hf E1. specialize (H f Hf). rewrite E1 in H.
    destruct r; try contradiction; [apply H; lia|exact H].
Qed.

Lemma exits_push_same K g g' a j l w pend st' (Q Q' : live -> item -> Prop) :
  exits K g ((a, j) :: l) w pend st' Q -> kindof j = K -> ~ Q [] j -> below a l -> passes a g g' ->
  (forall l1 i, Q ((a, j) :: l1) i -> Q' l1 i) -> exits K g' l w pend st' Q'.
Proof.
  intros (s1 & M & l1 & p & i & l2 & E & Ki & Qi & Iv & Cl & Pe & St & Go & Go2) N1 N2 Bl [F H] HQ.
  destruct l1 as [|x l1].
  { cbn [app] in E. inversion E; subst. contradiction. }
  cbn [app] in E. inversion E; subst x l; clear E.
  assert (D : drop K ((a, j) :: l1) = drop K l1).
  { unfold drop. cbn [filter snd]. rewrite N1, (proj2 (keqb_spec K K) eq_refl). reflexivity. }
  rewrite D in Iv. exists s1, M, l1, p, i, l2. repeat (split; [first [reflexivity|assumption|apply HQ; exact Qi]|]).
  assert (Na : p < a). { apply below_app in Bl. destruct Bl as [_ B]. inversion B; subst. cbn [fst] in *. lia. }
  split.
  - intros s2 U R. specialize (Go s2 U R).
    eapply eventually_S; [exact Go|]. exists F. intros f Hf E1. specialize (H f Hf). rewrite E1 in H. apply H. lia.
  - intros r Hr U. specialize (Go2 r Hr U).
    eapply eventually_S; [exact Go2|]. exists F. intros f Hf E1. specialize (H f Hf). rewrite E1 in H.
    destruct r; try contradiction; [apply H; lia|exact H].
Qed.

(** The frame just pushed is the target. *)
Lemma exits_here K g a j l w pend st' (Q : live -> item -> Prop) : K = KC \/ K = KB ->
  exits K g ((a, j) :: l) w pend st' Q -> kindof j = K -> (forall l1 i, ~ Q ((a, j) :: l1) i) ->
  exists s2, eventually g (MJump a w s2) /\ inv s2 ((a, j) :: l) /\ st_of s2 = restore pend st'.
Proof.
  intros HK (s1 & M & l1 & p & i & l2 & E & Ki & Qi & Iv & Cl & Pe & St & Go & Go2) Kj NQ.
  destruct l1 as [|x l1].
  2:{ cbn [app] in E. inversion E; subst. exfalso. eapply NQ. exact Qi. }
  cbn [app] in E. inversion E; subst p i l2; clear E. cbn [drop filter app] in Iv.
  destruct (unwind_done s1 M a j l Iv) as (s2 & U & Iv2 & St2 & _).
  { eapply Forall_impl; [|exact Cl]. cbn beta. intros z [Hz _]; exact Hz. }
  { rewrite Kj. destruct HK; subst K; discriminate. }
  { rewrite Kj. destruct HK; subst K; discriminate. }
  exists s2. split; [|split; [exact Iv2|rewrite St2, Pe, St; reflexivity]].
  apply Go; [exists 1; exact U|]. destruct Iv2 as (J1 & J2 & J3 & J4 & _).
  destruct HK; subst K; cbn [reg]; [rewrite J2|rewrite J3]; cbn [first]; rewrite Kj; reflexivity.
Qed.

(** ** Removing frames from the live list *)
Lemma first_remove k a j r : kindof j <> k -> forall M, first k (M ++ (a, j) :: r) = first k (M ++ r).
Proof.
  intros N. induction M as [|[b i] M IH]; cbn [app first].
  - destruct (keqb (kindof j) k) eqn:E; [apply keqb_spec in E; contradiction|reflexivity].
  - rewrite IH. reflexivity.
Qed.
Lemma frame_of_ext i r r' : first (kindof i) r = first (kindof i) r' -> frame_of i r = frame_of i r'.
Proof. intros E. destruct i; cbn [frame_of kindof] in *; rewrite E; reflexivity. Qed.

Lemma chain_remove m a j r : forall M, chain m (M ++ (a, j) :: r) -> Forall (fun x => kindof (snd x) <> kindof j) M ->
  chain m (M ++ r).
Proof.
  induction M as [|[b i] M IH]; intros C N; cbn [app chain] in *; [tauto|].
  inversion N as [|? ? N1 N2]; subst. cbn [snd] in N1. destruct C as (C1 & C2 & C3 & C4).
  split; [exact C1|]. split; [|split; [|auto]].
  - rewrite C2. apply frame_of_ext. apply first_remove. congruence.
  - apply below_app in C3. destruct C3 as [X Y]. inversion Y; subst. apply below_app. auto.
Qed.

Lemma first_drop K k r : K <> k -> forall l, first k (drop K l ++ r) = first k (l ++ r).
Proof.
  intros N. induction l as [|[a i] l IH]; [reflexivity|]. unfold drop in *. cbn [filter snd app first].
  destruct (keqb (kindof i) K) eqn:E; cbn [negb app first].
  - apply keqb_spec in E. destruct (keqb (kindof i) k) eqn:E2; [apply keqb_spec in E2; congruence|exact IH].
  - rewrite IH. reflexivity.
Qed.
Lemma first_drop_same K r : forall l, first K (drop K l ++ r) = first K r.
Proof.
  intros l. apply first_skip. unfold drop. apply Forall_forall. intros x Hx. apply filter_In in Hx.
  destruct Hx as [_ Hx]. intros E. rewrite E, (proj2 (keqb_spec K K) eq_refl) in Hx. discriminate.
Qed.
Lemma below_drop v K l : below v l -> below v (drop K l).
Proof.
  intros B. apply Forall_forall. intros x Hx. apply filter_In in Hx. exact (proj1 (Forall_forall _ l) B x (proj1 Hx)).
Qed.
Lemma chain_drop m K r : forall l, chain m (l ++ r) -> chain m (drop K l ++ r).
Proof.
  induction l as [|[a i] l IH]; intros C; [exact C|]. cbn [app chain] in C. destruct C as (C1 & C2 & C3 & C4).
  assert (D : drop K ((a, i) :: l) = if keqb (kindof i) K then drop K l else (a, i) :: drop K l).
  { unfold drop. cbn [filter snd]. destruct (keqb (kindof i) K); reflexivity. }
  rewrite D. destruct (keqb (kindof i) K) eqn:E; [auto|]. cbn [app chain]. split; [exact C1|]. split; [|split; [|auto]].
  - rewrite C2. apply frame_of_ext. symmetry. apply first_drop. intros X. subst K.
    rewrite (proj2 (keqb_spec _ _) eq_refl) in E. discriminate.
  - apply below_app in C3. apply below_app. split; [apply below_drop|]; tauto.
Qed.

(** ** Searching *)
Lemma find_catch_ok m t : forall l n, chain m l -> first KC l < n ->
  match index t (tags l) with
  | Some k => exists l1 p l2, l = l1 ++ (p, IC t) :: l2 /\ count_catches l1 = k /\ find_catch n m (first KC l) t = Found p
  | None => find_catch n m (first KC l) t = NotFound
  end.
Proof.
  induction l as [|[a i] r IH]; intros n C N.
  - cbn [tags index first] in *. destruct n as [|n]; [lia|]. reflexivity.
  - cbn [chain] in C. destruct C as (C1 & C2 & C3 & C4).
    assert (Skip : kindof i <> KC -> first KC ((a, i) :: r) = first KC r /\ tags ((a, i) :: r) = tags r /\
              forall l1, count_catches ((a, i) :: l1) = count_catches l1).
    { intros Hk. unfold count_catches. destruct i; cbn [kindof first keqb tags] in *; auto. contradiction. }
    destruct i as [x o|u|lx nm|c].
    2:{ cbn [first kindof keqb tags index] in *. destruct n as [|n]; [lia|]. cbn [find_catch].
        destruct (Nat.eqb_spec a 0); [lia|]. rewrite C2. cbn [frame_of].
        pose proof (first_below KC a r C1 C3).
        destruct (Z.eqb_spec u t) as [Eu|Eu].
        - subst u. exists [], a, r. auto.
        - specialize (IH n C4 ltac:(lia)). destruct (index t (tags r)) as [k|] eqn:Ei; cbn [option_map].
          + destruct IH as (l1 & p & l2 & El & Ec & Ef). exists ((a, IC u) :: l1), p, l2.
            split; [rewrite El; reflexivity|]. split; [|exact Ef]. unfold count_catches in *. cbn [tags length]. rewrite Ec. reflexivity.
          + exact IH. }
    all: destruct Skip as (S1 & S2 & S3); [discriminate|]; rewrite S1 in *; rewrite S2; specialize (IH n C4 N);
      destruct (index t (tags r)) as [k|]; [|exact IH];
      destruct IH as (l1 & p & l2 & El & Ec & Ef); eexists (_ :: l1), p, l2;
      split; [rewrite El; reflexivity|]; split; [rewrite S3; exact Ec|exact Ef].
Qed.

Lemma find_block_ok m n0 : forall l n, chain m l -> first KB l < n -> In n0 (lexnames l) ->
  exists l1 p i l2, l = l1 ++ (p, i) :: l2 /\ block_target n0 l1 i /\ find_block n m (first KB l) n0 = Found p.
Proof.
  induction l as [|[a i] r IH]; intros n C N Hin; [destruct Hin|].
  cbn [chain] in C. destruct C as (C1 & C2 & C3 & C4).
  destruct i as [x o|u|lx nm|c].
  3:{ cbn [first kindof keqb lexnames] in *. destruct n as [|n]; [lia|]. cbn [find_block].
      destruct (Nat.eqb_spec a 0); [lia|]. rewrite C2. cbn [frame_of]. pose proof (first_below KB a r C1 C3).
      assert (Cs : nm = Some n0 \/ nm <> Some n0 /\ lx = true /\ In n0 (lexnames r)).
      { destruct nm as [k|].
        - destruct (Nat.eq_dec k n0) as [->|Nk]; [left; reflexivity|right]. cbn [app] in Hin. destruct Hin as [Hin|Hin]; [contradiction|].
          destruct lx; [|destruct Hin]. split; [congruence|auto].
        - right. cbn [app] in Hin. destruct lx; [|destruct Hin]. split; [discriminate|auto]. }
      destruct Cs as [->|(Nn & -> & Hr)].
      - rewrite Nat.eqb_refl. exists [], a, (IB lx (Some n0)), r. split; [reflexivity|]. split; [|reflexivity].
        split; [exists lx; reflexivity|constructor].
      - replace (match nm with Some k => k =? n0 | None => false end) with false
          by (destruct nm as [k|]; [destruct (Nat.eqb_spec k n0); [subst; contradiction|reflexivity]|reflexivity]).
        destruct (IH n C4 ltac:(lia) Hr) as (l1 & p & i & l2 & El & [Hi Hf] & Ef).
        exists ((a, IB true nm) :: l1), p, i, l2. split; [rewrite El; reflexivity|]. split; [|exact Ef].
        split; [exact Hi|]. constructor; [cbn [snd]; auto|exact Hf]. }
  all: cbn [first kindof keqb lexnames] in *; destruct (IH n C4 N Hin) as (l1 & p & i & l2 & El & [Hi Hf] & Ef);
    eexists (_ :: l1), p, i, l2; split; [rewrite El; reflexivity|]; split; [|exact Ef];
    split; [exact Hi|]; constructor; [exact Logic.I|exact Hf].
Qed.
Lemma find_block_none m n0 : forall l n, chain m l -> first KB l < n -> ~ In n0 (lexnames l) ->
  find_block n m (first KB l) n0 = NotFound.
Proof.
  induction l as [|[a i] r IH]; intros n C N Hin.
  - cbn [first] in *. destruct n as [|n]; [lia|]. reflexivity.
  - cbn [chain] in C. destruct C as (C1 & C2 & C3 & C4). destruct i as [x o|u|lx nm|c]; cbn [first kindof keqb lexnames] in *.
    3:{ destruct n as [|n]; [lia|]. cbn [find_block]. destruct (Nat.eqb_spec a 0); [lia|]. rewrite C2. cbn [frame_of].
        pose proof (first_below KB a r C1 C3).
        assert (E : match nm with Some k => k =? n0 | None => false end = false).
        { destruct nm as [k|]; [|reflexivity]. destruct (Nat.eqb_spec k n0) as [->|Nk]; [|reflexivity].
          exfalso. apply Hin. left. reflexivity. }
        rewrite E. destruct lx.
        - apply IH; [exact C4|lia|]. intros Hr. apply Hin. apply in_or_app. right. exact Hr.
        - destruct n as [|n]; [lia|]. reflexivity. }
    all: apply IH; assumption.
Qed.

(** ** Leaving frames normally *)
Lemma leave_block_ok s l i v s1 lx nm : inv s l -> i = IB lx nm -> inv s1 ((vsp s, i) :: l) ->
  exists s', leave_block (vsp s) (vsp s) v s1 = MVal v s' /\ inv s' l /\ vsp s' = vsp s /\ st_of s' = st_of s1.
Proof.
  intros (_ & _ & _ & _ & _ & B & V) -> (I1 & I2 & I3 & I4 & I5 & I6 & I7).
  cbn [chain] in I5. destruct I5 as (C1 & C2 & C3 & C4). cbn [first kindof keqb] in *.
  unfold leave_block. rewrite C2. cbn [frame_of]. eexists. split; [reflexivity|]. split; [|split; reflexivity].
  unfold inv. cbn [set_vsp set_bl vsp sb ca bl pr mem]. auto 10.
Qed.
Lemma leave_function_ok s l v s1 lx nm : inv s l -> inv s1 ((vsp s, IB lx nm) :: l) ->
  exists s', leave_function (vsp s) (sb s) (vsp s) v s1 = MVal v s' /\ inv s' l /\ vsp s' = vsp s /\ st_of s' = st_of s1.
Proof.
  intros (J1 & _ & _ & _ & _ & B & V) (I1 & I2 & I3 & I4 & I5 & I6 & I7).
  cbn [chain] in I5. destruct I5 as (C1 & C2 & C3 & C4). cbn [first kindof keqb] in *.
  unfold leave_function. rewrite C2. cbn [frame_of]. rewrite unbindspecial_loop by lia. cbn [unbind_loop set_vsp set_bl sb].
  destruct (Nat.leb_spec (sb s + 3) (sb s1)); [lia|]. eexists. split; [reflexivity|]. split; [|split; reflexivity].
  unfold inv. cbn [set_vsp set_bl vsp sb ca bl pr mem]. auto 10.
Qed.

Lemma inv_makeblock s l nm (lx : bool) : inv s l -> inv (makeblock s nm (if lx then bl s else 0)) ((vsp s, IB lx nm) :: l).
Proof.
  intros H. apply inv_push with (s := s); auto; cbn [makeblock mem vsp]; [|lia].
  cbn [frame_of]. destruct H as (_ & _ & E & _). rewrite <- E. reflexivity.
Qed.
Lemma inv_mkcatch s l t : inv s l -> inv (mkcatchframe s t) ((vsp s, IC t) :: l).
Proof.
  intros H. apply inv_push with (s := s); auto; cbn [mkcatchframe mem vsp]; [|lia].
  cbn [frame_of]. destruct H as (_ & E & _). rewrite <- E. reflexivity.
Qed.
Lemma inv_mkprotect s l c : inv s l -> inv (mkprotect s c) ((vsp s, IP c) :: l).
Proof.
  intros H. apply inv_push with (s := s); auto; cbn [mkprotect mem vsp]; [|lia].
  cbn [frame_of]. destruct H as (_ & _ & _ & E & _). rewrite <- E. reflexivity.
Qed.
Lemma inv_bind s l x v : inv s l -> inv (bindspecial s x v) ((vsp s, IS x (spec s x)) :: l).
Proof.
  intros H. apply inv_push with (s := s); auto; cbn [bindspecial mem vsp]; [|lia].
  cbn [frame_of]. destruct H as (E & _). rewrite <- E. reflexivity.
Qed.

Lemma leave_let s l s2 x old a : inv s l -> vsp s <= a -> inv s2 ((a, IS x old) :: l) ->
  exists s3, unbindspecial (set_vsp s2 (vsp s)) (vsp s) = Some s3 /\ inv s3 l /\ vsp s3 = vsp s /\
    st_of s3 = assign x old (st_of s2).
Proof.
  intros (J1 & _ & _ & _ & _ & B & V) La (I1 & I2 & I3 & I4 & I5 & I6 & I7).
  cbn [chain] in I5. destruct I5 as (C1 & C2 & C3 & C4). cbn [first kindof keqb] in *.
  pose proof (first_below KS _ _ V B) as Lt.
  rewrite unbindspecial_loop by exact V. cbn [set_vsp sb]. rewrite I1. destruct a as [|a]; [lia|].
  cbn [unbind_loop set_vsp sb mem]. rewrite I1. destruct (Nat.leb_spec (vsp s) (S a)); [|lia]. rewrite C2. cbn [frame_of].
  cbn [sb]. destruct (Nat.leb_spec (vsp s) (first KS l)); [lia|].
  eexists. split; [reflexivity|]. split; [|split; reflexivity].
  unfold inv. cbn [set_vsp vsp sb ca bl pr mem]. auto 10.
Qed.

Lemma leave_catch s l s2 t v : inv s l -> inv s2 ((vsp s, IC t) :: l) ->
  exists s3, match mem s2 (ca s2) with
             | FCatch next _ => MVal v (set_ca (set_vsp s2 (ca s2)) next)
             | _ => MUndef
             end = MVal v s3 /\ inv s3 l /\ vsp s3 = vsp s /\ st_of s3 = st_of s2.
Proof.
  intros (J1 & _ & _ & _ & _ & B & V) (I1 & I2 & I3 & I4 & I5 & I6 & I7).
  cbn [chain] in I5. destruct I5 as (C1 & C2 & C3 & C4). cbn [first kindof keqb] in *.
  rewrite I2, C2. cbn [frame_of]. eexists. split; [reflexivity|]. split; [|split; reflexivity].
  unfold inv. cbn [set_vsp set_ca vsp sb ca bl pr mem]. auto 10.
Qed.

Lemma leave_protect s l s1 c : inv s l -> inv s1 ((vsp s, IP c) :: l) -> inv (set_pr (set_vsp s1 (vsp s)) (pr s)) l.
Proof.
  intros (J1 & _ & _ & J4 & _ & B & V) (I1 & I2 & I3 & I4 & I5 & I6 & I7).
  cbn [chain] in I5. destruct I5 as (C1 & C2 & C3 & C4). cbn [first kindof keqb] in *.
  unfold inv. cbn [set_vsp set_pr vsp sb ca bl pr mem]. auto 10.
Qed.

Lemma eval_throw f tag e1 s : eval P (S f) (Throw tag e1) s =
  match eval P f tag s with
  | MVal t s1 =>
      match eval P f e1 s1 with
      | MVal v s2 =>
          match find_catch (S (ca s2)) (mem s2) (ca s2) t with
          | Found p => match unwind P f (set_ca s2 p) p with MVal _ s3 => MJump (ca s3) v s3 | r => r end
          | NotFound => MErr s2
          | Bad => MUndef
          end
      | r => r
      end
  | r => r
  end.
Proof. reflexivity. Qed.
Lemma eval_return f n e1 s : eval P (S f) (ReturnFrom n e1) s =
  match find_block (S (bl s)) (mem s) (bl s) n with
  | Found q => match eval P f e1 s with
               | MVal v s1 => match unwind P f (set_bl s1 q) q with
                              | MVal _ s2 => MJump (bl s2) (ret_word v) s2
                              | r => r
                              end
               | r => r
               end
  | NotFound => MErr s
  | Bad => MUndef
  end.
Proof. reflexivity. Qed.

(** ** The main lemma *)
Definition sim (T : list word) (L : list nat) (e : exp) (st : state) (o : outcome) (st' : state) : Prop :=
  forall s l B B', inv s l -> tags l = T ++ B -> lexnames l = L ++ B' -> st_of s = st ->
    does (fun f => eval P f e s) (vsp s) l T L o st'.

(** A cleanup form run by unwind. *)
Lemma cleanup_run c st w st2 : sim [] [] c st (RVal w) st2 -> forall s l, inv s l -> st_of s = st ->
  exists s', eventually (fun f => funlambda (eval P f) None c s) (MVal w s') /\ inv s' l /\ vsp s' = vsp s /\ st_of s' = st2.
Proof.
  intros H s l Iv St. pose proof (inv_makeblock s l None false Iv) as Ib. cbn iota in Ib.
  destruct (H _ _ (tags l) [] Ib eq_refl eq_refl St) as (s1 & [F E] & Iv1 & _ & St1).
  destruct (leave_function_ok s l w s1 false None Iv Iv1) as (s' & Le & Iv' & V' & St').
  exists s'. split; [|split; [exact Iv'|split; [exact V'|congruence]]].
  exists F. intros f Hf. unfold funlambda. rewrite (E f Hf). exact Le.
Qed.

Lemma unwind_protected f s p a link c : pr s = a -> p <= a -> mem s a = FProtect link c ->
  unwind P (S f) s p = match funlambda (eval P f) None c (set_pr s link) with MVal _ s1 => unwind P f s1 p | r => r end.
Proof.
  intros Ea Lp Em. transitivity (if p <=? pr s then
          match mem s (pr s) with
          | FProtect link c => match funlambda (eval P f) None c (set_pr s link) with
                               | MVal _ s1 => unwind P f s1 p
                               | r => r
                               end
          | _ => MUndef
          end
        else
          match unbindspecial s p with
          | None => MUndef
          | Some s1 => match pop_blocks (S (bl s1)) p s1 with
                       | None => MUndef
                       | Some s2 => match pop_catches (S (ca s2)) p s2 with
                                    | None => MUndef
                                    | Some s3 => MVal NILw s3
                                    end
                       end
          end); [reflexivity|].
  rewrite Ea. destruct (Nat.leb_spec p a); [|lia]. rewrite Em. reflexivity.
Qed.

(** The protect frame is taken off and its cleanup form is about to run in the block frame of a closure. *)
Lemma protect_opened K s1 M a c r p : inv s1 (M ++ (a, IP c) :: r) -> K = KC \/ K = KB ->
  Forall (fun x => kindof (snd x) <> KP /\ kindof (snd x) <> K) M -> p <= a ->
  exists s1', inv s1' (M ++ r) /\ st_of s1' = st_of s1 /\
    forall f, unwind P (S f) s1 p = match funlambda (eval P f) None c s1' with MVal _ s2 => unwind P f s2 p | r => r end.
Proof.
  intros (I1 & I2 & I3 & I4 & I5 & I6 & I7) HK Cl Lp.
  assert (NP : Forall (fun x => kindof (snd x) <> KP) M) by (eapply Forall_impl; [|exact Cl]; cbn beta; intros z [Hz _]; exact Hz).
  assert (Pr : pr s1 = a) by (rewrite I4, (first_skip KP M _ NP); reflexivity).
  pose proof (chain_app _ _ _ I5) as C. cbn [chain] in C. destruct C as (C1 & C2 & C3 & C4).
  exists (set_pr s1 (first KP r)). split; [|split; [reflexivity|]].
  - unfold inv. cbn [set_pr vsp sb ca bl pr mem]. rewrite I1, I2, I3.
    split; [apply first_remove; discriminate|]. split; [apply first_remove; discriminate|]. split; [apply first_remove; discriminate|].
    split; [symmetry; apply first_skip; exact NP|]. split; [eapply chain_remove; [exact I5|exact NP]|].
    split; [|exact I7]. apply below_app in I6. destruct I6 as [X Y]. inversion Y; subst. apply below_app. auto.
  - intros f. exact (unwind_protected f s1 p a (first KP r) c Pr Lp C2).
Qed.

Lemma exits_protect K g g' a c l w pend st1 st2 w0 (Q Q' : live -> item -> Prop) : K = KC \/ K = KB ->
  exits K g ((a, IP c) :: l) w pend st1 Q -> sim [] [] c st1 (RVal w0) st2 -> hands_on g g' ->
  (forall l1 i, Q ((a, IP c) :: l1) i -> Q' l1 i) -> exits K g' l w pend st2 Q'.
Proof.
  intros HK X Hc Hh HQ. apply (exits_hands K g g') in X; [|exact Hh].
  destruct X as (s1 & M & l1 & p & i & l2 & E & Ki & Qi & Iv & Cl & Pe & St & Go & Go2).
  destruct l1 as [|x l1].
  { cbn [app] in E. inversion E; subst. cbn [kindof] in HK. destruct HK; discriminate. }
  cbn [app] in E. inversion E; subst x l; clear E.
  assert (D : drop K ((a, IP c) :: l1) = (a, IP c) :: drop K l1).
  { unfold drop. cbn [filter snd kindof]. destruct HK; subst K; reflexivity. }
  rewrite D in Iv. cbn [app] in Iv.
  assert (Lp : p <= a).
  { destruct Iv as (_ & _ & _ & _ & C & _). apply chain_app in C. cbn [chain] in C. destruct C as (_ & _ & C3 & _).
    apply below_app in C3. destruct C3 as [_ C3]. inversion C3; subst. cbn [fst] in *. lia. }
  destruct (protect_opened K _ _ _ _ _ p Iv HK Cl Lp) as (s1' & Iv1 & St1 & Un). rewrite <- St1 in St.
  destruct (cleanup_run c st1 w0 st2 Hc _ _ Iv1 St) as (s4 & [F Ec] & Iv4 & V4 & St4).
  exists s4, M, l1, p, i, l2. split; [reflexivity|]. split; [exact Ki|]. split; [apply HQ; exact Qi|].
  split; [exact Iv4|]. split; [exact Cl|]. split; [exact Pe|]. split; [exact St4|].
  assert (Up : forall r, eventually (fun f => unwind P f s4 p) r -> eventually (fun f => unwind P f s1 p) r).
  { intros r [F2 U]. exists (S (F + F2)). intros [|f] Hf; [lia|]. rewrite Un, (Ec f) by lia. apply U. lia. }
  split; [intros s2 U R; apply Go; [apply Up; exact U|exact R]|intros r Hr U; apply Go2; [exact Hr|apply Up; exact U]].
Qed.

Lemma tags_app a b : tags (a ++ b) = tags a ++ tags b.
Proof. induction a as [|[x i] a IH]; [reflexivity|]. destruct i; cbn [app tags]; rewrite IH; reflexivity. Qed.
Lemma tags_none a : Forall (fun x => kindof (snd x) <> KC) a -> tags a = [].
Proof.
  induction 1 as [|[x i] a H _ IH]; [reflexivity|]. destruct i; cbn [tags]; try exact IH. cbn [snd kindof] in H. contradiction.
Qed.
Lemma drop_clear K a : Forall (fun x => kindof (snd x) <> K) (drop K a).
Proof.
  apply Forall_forall. intros x Hx. apply filter_In in Hx. destruct Hx as [_ Hx] . intros E.
  rewrite E, (proj2 (keqb_spec K K) eq_refl) in Hx. discriminate.
Qed.
Lemma drop_app K a b : drop K (a ++ b) = drop K a ++ drop K b.
Proof. unfold drop. apply filter_app. Qed.
Lemma drop_none K a : Forall (fun x => kindof (snd x) <> K) a -> drop K a = a.
Proof.
  induction 1 as [|[x i] a H _ IH]; [reflexivity|]. cbn [snd] in H. unfold drop in *. cbn [filter snd].
  destruct (keqb (kindof i) K) eqn:E; [apply keqb_spec in E; contradiction|]. cbn [negb]. rewrite IH. reflexivity.
Qed.

(** The live frames while the cleanup form runs during a throw. *)
Lemma throw_opened g g' a c l w pend st1 k T B :
  exits KC g ((a, IP c) :: l) w pend st1 (fun l1 _ => count_catches l1 = k) -> tags l = T ++ B -> hands_on g g' ->
  exists s1 s1' M l1 p i l2, l = l1 ++ (p, i) :: l2 /\ kindof i = KC /\ count_catches l1 = k /\
    inv s1' (M ++ drop KC l1 ++ (p, i) :: l2) /\ Forall (fun x => kindof (snd x) <> KP /\ kindof (snd x) <> KC) M /\
    pendof M = pend /\ st_of s1' = st1 /\
    tags (M ++ drop KC l1 ++ (p, i) :: l2) = skipn k T ++ skipn (k - length T) B /\
    (forall f, unwind P (S f) s1 p = match funlambda (eval P f) None c s1' with MVal _ s2 => unwind P f s2 p | r => r end) /\
    (forall r, match r with MErr _ => True | MJump q _ _ => q <= p | _ => False end ->
       eventually (fun f => unwind P f s1 p) r -> eventually g' r).
Proof.
  intros X Et Hh. apply (exits_hands KC g g') in X; [|exact Hh].
  destruct X as (s1 & M & l1 & p & i & l2 & E & Ki & Qi & Iv & Cl & Pe & St & Go & Go2).
  destruct l1 as [|x l1].
  { cbn [app] in E. inversion E; subst. discriminate. }
  cbn [app] in E. inversion E; subst x l; clear E.
  change (drop KC ((a, IP c) :: l1)) with ((a, IP c) :: drop KC l1) in Iv. cbn [app] in Iv.
  assert (Lp : p <= a).
  { destruct Iv as (_ & _ & _ & _ & C & _). apply chain_app in C. cbn [chain] in C. destruct C as (_ & _ & C3 & _).
    apply below_app in C3. destruct C3 as [_ C3]. inversion C3; subst. cbn [fst] in *. lia. }
  destruct (protect_opened KC _ _ _ _ _ p Iv (or_introl eq_refl) Cl Lp) as (s1' & Iv1 & St1 & Un). rewrite <- St1 in St.
  exists s1, s1', M, l1, p, i, l2. split; [reflexivity|]. split; [exact Ki|]. split; [exact Qi|].
  split; [exact Iv1|]. split; [exact Cl|]. split; [exact Pe|]. split; [exact St|]. split; [|split; [exact Un|exact Go2]].
  rewrite !tags_app, (tags_none M), (tags_none (drop KC l1)); [|apply drop_clear|eapply Forall_impl; [|exact Cl]; cbn beta; tauto].
  cbn [app]. rewrite <- skipn_app, <- Et, tags_app. change (count_catches ((a, IP c) :: l1)) with (length (tags l1)) in Qi.
  rewrite <- Qi, skipn_app, skipn_all, Nat.sub_diag. reflexivity.
Qed.

Lemma exits_protect_throw g g' a c l w pend st1 st2 k T B k2 v2 pend2 :
  exits KC g ((a, IP c) :: l) w pend st1 (fun l1 _ => count_catches l1 = k) -> tags l = T ++ B ->
  sim (skipn k T) [] c st1 (RThrow k2 v2 pend2) st2 -> hands_on g g' ->
  exits KC g' l v2 (pend2 ++ pend) st2 (fun l1 _ => count_catches l1 = k + k2).
Proof.
  intros X Et Hc Hh.
  destruct (throw_opened _ _ _ _ _ _ _ _ _ _ _ X Et Hh)
    as (s1 & s1' & M & l1 & p & i & l2 & E & Ki & Ck & Iv1 & Cl & Pe & St & Tg & Un & Go).
  pose proof (inv_makeblock _ _ None false Iv1) as Ib. cbn iota in Ib.
  destruct (Hc _ _ _ [] Ib Tg eq_refl St) as (s3 & M3 & l3 & q & j & l4 & E3 & Kj & Qj & Iv3 & Cl3 & Pe3 & St3 & Go3 & Go4).
  set (b := vsp s1') in *.
  assert (NC : Forall (fun x => kindof (snd x) <> KC) ((b, IB false None) :: M ++ drop KC l1)).
  { constructor; [discriminate|]. apply Forall_app. split; [|apply drop_clear]. eapply Forall_impl; [|exact Cl]; cbn beta; tauto. }
  (* the inner target is the outer one or further out *)
  assert (Sp : exists l5, l3 = ((b, IB false None) :: M ++ drop KC l1) ++ l5 /\ (p, i) :: l2 = l5 ++ (q, j) :: l4).
  { assert (E4 : ((b, IB false None) :: M ++ drop KC l1) ++ (p, i) :: l2 = l3 ++ (q, j) :: l4)
      by (rewrite <- E3; cbn [app]; rewrite <- app_assoc; reflexivity).
    clear - E4 NC Kj Ki. revert l3 E4. generalize dependent ((b, IB false None) :: M ++ drop KC l1).
    intros N NC. induction NC as [|y N Hy _ IH]; intros l3 E4.
    - exists l3. split; [reflexivity|exact E4].
    - destruct l3 as [|z l3]; cbn [app] in E4; inversion E4; subst.
      + cbn [snd] in Hy. contradiction.
      + destruct (IH l3 H1) as (l5 & A1 & A2). exists l5. split; [rewrite A1; reflexivity|exact A2]. }
  destruct Sp as (l5 & El3 & E5).
  assert (Lq : q <= p).
  { destruct l5 as [|y l5]; cbn [app] in E5; inversion E5; subst; [lia|].
    destruct Iv1 as (_ & _ & _ & _ & C & _). apply chain_app in C. apply chain_app in C. cbn [chain] in C. destruct C as (_ & _ & C3 & _).
    apply below_app in C3. destruct C3 as [_ C3]. inversion C3; subst. cbn [fst] in *. lia. }
  assert (Up : forall r, match r with MErr _ => True | MJump _ _ _ => True | _ => False end ->
            match r with MJump q' _ _ => q' <> b | _ => True end ->
            eventually (fun f => eval P f c (makeblock s1' None 0)) r -> eventually (fun f => unwind P f s1 p) r).
  { intros r Hr Hb [F2 U]. exists (S F2). intros [|f] Hf; [lia|]. rewrite Un. unfold funlambda. rewrite (U f) by lia.
    fold b. destruct r as [| q' w' z'| | |]; try contradiction; [|reflexivity].
    destruct (Nat.eqb_spec q' b); [contradiction|reflexivity]. }
  assert (Lb : p < b).
  { destruct Iv1 as (_ & _ & _ & _ & _ & Bl & _). apply below_app in Bl. destruct Bl as [_ Bl].
    apply below_app in Bl. destruct Bl as [_ Bl]. inversion Bl; subst. cbn [fst] in *. assumption. }
  exists s3, (M3 ++ (b, IB false None) :: M), (l1 ++ l5), q, j, l4.
  split; [rewrite E, E5, app_assoc; reflexivity|]. split; [exact Kj|].
  split.
  { unfold count_catches in *. rewrite tags_app, app_length, Ck. rewrite El3, tags_app, (tags_none _ NC) in Qj. cbn [app] in Qj. lia. }
  split.
  { rewrite El3, drop_app, (drop_none KC _ NC) in Iv3. rewrite drop_app.
    replace ((M3 ++ (b, IB false None) :: M) ++ (drop KC l1 ++ drop KC l5) ++ (q, j) :: l4)
      with (M3 ++ (((b, IB false None) :: M ++ drop KC l1) ++ drop KC l5) ++ (q, j) :: l4); [exact Iv3|].
    rewrite <- !app_assoc. cbn [app]. rewrite <- !app_assoc. reflexivity. }
  split.
  { apply Forall_app. split; [exact Cl3|]. constructor; [split; discriminate|exact Cl]. }
  split; [rewrite pendof_app, Pe3; cbn; fold (pendof M); rewrite Pe; reflexivity|]. split; [exact St3|].
  split.
  - intros s2 U R. apply Go; [exact Lq|]. apply Up; [exact Logic.I|cbn beta iota; lia|]. apply Go3; assumption.
  - intros r Hr U. apply Go.
    { destruct r; try contradiction; [lia|exact Logic.I]. }
    apply Up; [destruct r; try contradiction; exact Logic.I|destruct r; try contradiction; [lia|exact Logic.I]|].
    apply Go4; assumption.
Qed.

Lemma exits_protect_err g g' a c l w pend st1 st2 k T :
  exits KC g ((a, IP c) :: l) w pend st1 (fun l1 _ => count_catches l1 = k) -> T = tags l ->
  sim (skipn k T) [] c st1 RErr st2 -> hands_on g g' -> exists s', eventually g' (MErr s') /\ st_of s' = st2.
Proof.
  intros X Et Hc Hh. assert (Et' : tags l = T ++ []) by (rewrite app_nil_r; auto).
  destruct (throw_opened _ _ _ _ _ _ _ _ _ _ _ X Et' Hh)
    as (s1 & s1' & M & l1 & p & i & l2 & E & Ki & Ck & Iv1 & Cl & Pe & St & Tg & Un & Go).
  pose proof (inv_makeblock _ _ None false Iv1) as Ib. cbn iota in Ib.
  assert (Tg' : skipn k T = tags (M ++ drop KC l1 ++ (p, i) :: l2)) by (rewrite Tg, skipn_nil, app_nil_r; reflexivity).
  destruct (Hc _ _ _ [] Ib Tg eq_refl St Tg' eq_refl) as (s3 & [F2 U] & St3).
  exists s3. split; [|exact St3]. apply (Go (MErr s3)); [exact Logic.I|].
  exists (S F2). intros [|f] Hf; [lia|]. rewrite Un. unfold funlambda. rewrite (U f) by lia. reflexivity.
Qed.

Lemma block_target_tail n x l1 i : block_target n (x :: l1) i -> block_target n l1 i.
Proof. intros [H1 H2]. split; [exact H1|]. inversion H2; assumption. Qed.

Lemma delivered_ret v : delivered (ret_word v) = delivered v.
Proof. unfold delivered, ret_word. destruct (Z.eqb_spec v (int_word 0)) as [->|N]; reflexivity. Qed.

Lemma index_app t T B k : index t T = Some k -> index t (T ++ B) = Some k.
Proof.
  revert k. induction T as [|u T IH]; intros k; cbn [index app]; [discriminate|].
  destruct (Z.eqb u t); [auto|]. destruct (index t T) as [j|]; cbn [option_map]; [|discriminate].
  intros E. rewrite (IH j eq_refl). exact E.
Qed.

Theorem machine_runs T L e st o st' : as_coded P T L e st o st' -> sim T L e st o st'.
Proof.
  unfold as_coded. induction 1 as
    [T L w s|T L k s|T L x s|T L x e s v s1 _ IH|T L x e s o s1 _ IH N
    |T L a b s v s1 o s2 _ IH1 _ IH2|T L a b s o s1 _ IH N
    |T L c a b s v s1 o s2 _ IH1 _ IH2|T L c a b s o s1 _ IH N
    |T L x e b s v s1 o s2 _ IH1 _ IH2|T L x e b s o s1 _ IH N
    |T L tag b s t s1 o s2 _ IH1 _ IH2|T L tag b s o s1 _ IH N
    |T L tag e s t s1 v s2 k _ IH1 _ IH2 Ix|T L tag e s t s1 v s2 _ IH1 _ IH2 Ix
    |T L tag e s o s1 _ IH N|T L tag e s t s1 o s2 _ IH1 _ IH2 N
    |T L n b s o s1 _ IH
    |T L n e s v s1 Hin _ IH|T L n e s Hn|T L n e s o s1 Hin _ IH N
    |T L c b s s1 _ IH|T L c b s v s1 w s2 o s3 _ IH1 Nv _ IH2 _ IH3|T L c b s o s1 _ IH N
    |T L c b s v s1 o s2 _ IH1 Nv _ IH2 N
    |T L e c s v s1 w s2 _ IH1 _ IH2|T L e c s v s1 o s2 _ IH1 _ IH2 N
    |T L e c s o s1 w s2 _ IH1 Lv _ IH2|T L e c s k v pend s1 k2 v2 pend2 s2 _ IH1 _ IH2|T L e c s k v pend s1 s2 _ IH1 _ IH2|T L e c s s1 _ IH|T L g s o s1 _ IH];
    intros z l B B' Iv Et El St.
  - (* Const *) exists z. split; [exists 1; intros [|f] Hf; [lia|reflexivity]|]. auto.
  - (* Emit *) exists (emit z k). split; [exists 1; intros [|f] Hf; [lia|reflexivity]|].
    split; [eapply inv_same_regs; [exact Iv|reflexivity..|cbn; lia]|]. split; [reflexivity|]. subst s. reflexivity.
  - (* Get *) exists z. split; [exists 1; intros [|f] Hf; [lia|]|]; [|subst s; auto]. subst s. reflexivity.
  - (* SetQ *) destruct (IH z l B B' Iv Et El St) as (z1 & Ev & Iv1 & V1 & St1).
    exists (set_spec z1 x v). split; [|split; [|split]].
    + eapply eventually_S2; [exact Ev|]. exists 0. intros f _ E. cbn [eval]. rewrite E. reflexivity.
    + eapply inv_same_regs; [exact Iv1|reflexivity..|cbn; lia].
    + exact V1.
    + subst s1. reflexivity.
  - (* SetQ left *) eapply does_hands; [exact (IH z l B B' Iv Et El St)|exact N|]. exists 0. intros f _. cbn [eval].
    destruct (eval P f e z); auto.
  - (* Progn *) destruct (IH1 z l B B' Iv Et El St) as (z1 & [F E] & Iv1 & V1 & St1). rewrite <- V1.
    eapply does_same; [exact (IH2 z1 l B B' Iv1 Et El St1)|]. exists F. intros f Hf. cbn [eval]. rewrite (E f Hf). reflexivity.
  - eapply does_hands; [exact (IH z l B B' Iv Et El St)|exact N|]. exists 0. intros f _. cbn [eval].
    destruct (eval P f a z); auto.
  - (* If *) destruct (IH1 z l B B' Iv Et El St) as (z1 & [F E] & Iv1 & V1 & St1). rewrite <- V1.
    eapply does_same; [exact (IH2 z1 l B B' Iv1 Et El St1)|]. exists F. intros f Hf. cbn [eval]. rewrite (E f Hf).
    destruct (Z.eqb v NILw); reflexivity.
  - eapply does_hands; [exact (IH z l B B' Iv Et El St)|exact N|]. exists 0. intros f _. cbn [eval].
    destruct (eval P f c z); auto.
  - (* Let *) destruct (IH1 z l B B' Iv Et El St) as (z1 & [F E] & Iv1 & V1 & St1).
    assert (Iv1' : inv (set_vsp z1 (vsp z1 + 1)) l) by (eapply inv_same_regs; [exact Iv1|reflexivity..|cbn; lia]).
    pose proof (inv_bind _ _ x v Iv1') as Iv2. cbn [set_vsp vsp spec] in Iv2.
    set (zb := bindspecial (set_vsp z1 (vsp z1 + 1)) x v) in *.
    assert (Stb : st_of zb = assign x v s1) by (subst s1; reflexivity).
    assert (Ex : fst s1 x = spec z1 x) by (subst s1; reflexivity). rewrite Ex.
    pose proof (IH2 zb _ B B' Iv2 Et El Stb) as D.
    assert (Pa : passes (vsp z1 + 1) (fun f => eval P f b zb) (fun f => eval P f (Let x e b) z)).
    { exists F. intros f Hf. cbn [eval]. rewrite (E f Hf). fold zb. destruct (eval P f b zb); auto. }
    destruct o as [w|k w pend|n w pend|]; cbn [let_exit fst snd].
    + destruct D as (z2 & Ev & Iv3 & _ & St3).
      destruct (leave_let z l z2 x (spec z1 x) (vsp z1 + 1) Iv ltac:(lia) Iv3) as (z3 & U & Iv4 & V4 & St4).
      exists z3. split; [|split; [exact Iv4|split; [exact V4|congruence]]].
      eapply eventually_S2; [exact Ev|]. exists F. intros f Hf E2. cbn [eval]. rewrite (E f Hf). fold zb. rewrite E2, U. reflexivity.
    + change [(x, spec z1 x)] with (pendof [(vsp z1 + 1, IS x (spec z1 x))]).
      eapply exits_push; [exact D|discriminate|discriminate|exact Pa|]. intros l1 i Q. exact Q.
    + change [(x, spec z1 x)] with (pendof [(vsp z1 + 1, IS x (spec z1 x))]).
      eapply exits_push; [exact D|discriminate|discriminate|exact Pa|]. intros l1 i Q. exact (block_target_tail _ _ _ _ Q).
    + intros E1 E2. destruct (D E1 E2) as (z2 & Ev & St2). exists z2. split; [|exact St2].
      destruct Pa as [F' Pa]. eapply eventually_S; [exact Ev|]. exists F'. intros f Hf E3. specialize (Pa f Hf). cbn beta in *.
      rewrite E3 in Pa. exact Pa.
  - eapply does_hands; [exact (IH z l B B' Iv Et El St)|exact N|]. exists 0. intros f _. cbn [eval].
    destruct (eval P f e z); auto.
  - (* Catch *) destruct (IH1 z l B B' Iv Et El St) as (z1 & [F E] & Iv1 & V1 & St1).
    pose proof (inv_mkcatch _ _ t Iv1) as Iv2. set (zb := mkcatchframe z1 t) in *.
    pose proof (IH2 zb _ B B' Iv2 (f_equal (cons t) Et) El St1) as D.
    assert (Pa : passes (vsp z1) (fun f => eval P f b zb) (fun f => eval P f (Catch tag b) z)).
    { exists F. intros f Hf. cbn [eval]. rewrite (E f Hf). fold zb. destruct (eval P f b zb) as [|p w z2| | |]; auto.
      intros Np. destruct (Nat.eqb_spec p (vsp z1)); [contradiction|reflexivity]. }
    destruct o as [w|[|k] w pend|n w pend|]; cbn [catch_exit fst snd].
    + destruct D as (z2 & Ev & Iv3 & _ & St3).
      destruct (leave_catch z1 l z2 t w Iv1 Iv3) as (z3 & U & Iv4 & V4 & St4).
      exists z3. split; [|split; [exact Iv4|split; congruence]].
      eapply eventually_S2; [exact Ev|]. exists F. intros f Hf E2. cbn [eval]. rewrite (E f Hf). fold zb. rewrite E2. exact U.
    + destruct (exits_here KC _ _ _ _ _ _ _ _ (or_introl eq_refl) D eq_refl) as (z2 & Ev & Iv3 & St3).
      { intros l1 i. unfold count_catches. cbn [tags length]. discriminate. }
      destruct (leave_catch z1 l z2 t (delivered w) Iv1 Iv3) as (z3 & U & Iv4 & V4 & St4).
      exists z3. split; [|split; [exact Iv4|split; congruence]].
      eapply eventually_S2; [exact Ev|]. exists F. intros f Hf E2. cbn [eval]. rewrite (E f Hf). fold zb. rewrite E2.
      rewrite Nat.eqb_refl. exact U.
    + eapply exits_push_same; [exact D|reflexivity| |exact (proj1 (proj2 (proj2 (proj2 (proj2 (proj2 Iv1))))))|exact Pa|].
      * discriminate.
      * intros l1 i. unfold count_catches. cbn [tags length]. congruence.
    + replace pend with (pend ++ pendof [(vsp z1, IC t)]) by (cbn; apply app_nil_r).
      eapply exits_push; [exact D|discriminate|discriminate|exact Pa|]. intros l1 i Q. exact (block_target_tail _ _ _ _ Q).
    + intros E1 E2. destruct (D (f_equal (cons t) E1) E2) as (z2 & Ev & St2). exists z2. split; [|exact St2].
      destruct Pa as [F' Pa]. eapply eventually_S; [exact Ev|]. exists F'. intros f Hf E3. specialize (Pa f Hf). cbn beta in *.
      rewrite E3 in Pa. exact Pa.
  - eapply does_hands; [exact (IH z l B B' Iv Et El St)|exact N|]. exists 0. intros f _. cbn [eval].
    destruct (eval P f tag z); auto.
  - (* Throw *) destruct (IH1 z l B B' Iv Et El St) as (z1 & [F1 E1] & Iv1 & V1 & St1).
    destruct (IH2 z1 l B B' Iv1 Et El St1) as (z2 & [F2 E2] & Iv2 & V2 & St2).
    destruct Iv2 as (I1 & I2 & I3 & I4 & I5 & I6 & I7).
    pose proof (find_catch_ok (mem z2) t l (S (ca z2)) I5 ltac:(lia)) as Fc.
    rewrite Et, (index_app t T B k Ix) in Fc. destruct Fc as (l1 & p & l2 & E & Ec & Fd).
    exists (set_ca z2 p), [], l1, p, (IC t), l2. split; [exact E|]. split; [reflexivity|]. split; [exact Ec|].
    rewrite E in *. split.
    { unfold inv. cbn [app set_ca vsp sb ca bl pr mem]. rewrite I1, I3, I4.
      split; [symmetry; apply first_drop; discriminate|]. split; [rewrite first_drop_same; reflexivity|].
      split; [symmetry; apply first_drop; discriminate|]. split; [symmetry; apply first_drop; discriminate|].
      split; [apply chain_drop; exact I5|]. split; [|exact I7]. apply below_app in I6. apply below_app.
      split; [apply below_drop|]; tauto. }
    split; [constructor|]. split; [reflexivity|]. split; [exact St2|].
    split.
    + intros s3 [F3 U] R. exists (S (F1 + F2 + F3)). intros [|f] Hf; [lia|]. rewrite eval_throw.
      rewrite (E1 f), (E2 f) by lia. rewrite I2 at 2. rewrite Fd. rewrite (U f) by lia. cbn [reg] in R. rewrite R. reflexivity.
    + intros r Hr [F3 U]. exists (S (F1 + F2 + F3)). intros [|f] Hf; [lia|]. rewrite eval_throw.
      rewrite (E1 f), (E2 f) by lia. rewrite I2 at 2. rewrite Fd. rewrite (U f) by lia. destruct r; try contradiction; reflexivity.
  - (* Throw, no catcher *) intros ET EL. destruct (IH1 z l B B' Iv Et El St) as (z1 & [F1 E1] & Iv1 & V1 & St1).
    destruct (IH2 z1 l B B' Iv1 Et El St1) as (z2 & [F2 E2] & Iv2 & V2 & St2).
    destruct Iv2 as (I1 & I2 & I3 & I4 & I5 & I6 & I7).
    pose proof (find_catch_ok (mem z2) t l (S (ca z2)) I5 ltac:(lia)) as Fc.
    rewrite <- ET, Ix in Fc. exists z2. split; [|exact St2]. exists (S (F1 + F2)). intros [|f] Hf; [lia|]. rewrite eval_throw.
    rewrite (E1 f), (E2 f) by lia. rewrite I2 at 2. rewrite Fc. reflexivity.
  - eapply does_hands; [exact (IH z l B B' Iv Et El St)|exact N|]. exists 0. intros f _. rewrite eval_throw.
    destruct (eval P f tag z); auto.
  - destruct (IH1 z l B B' Iv Et El St) as (z1 & [F E] & Iv1 & V1 & St1).
    eapply does_hands; [exact (IH2 z1 l B B' Iv1 Et El St1)|exact N|]. exists F. intros f Hf. rewrite eval_throw. rewrite (E f Hf).
    destruct (eval P f e z1); auto.
  - (* Block *) pose proof (inv_makeblock _ _ (Some n) true Iv) as Iv2. cbn iota in Iv2.
    set (zb := makeblock z (Some n) (bl z)) in *.
    pose proof (IH zb _ B B' Iv2 Et (f_equal (cons n) El) St) as D.
    assert (Pa : passes (vsp z) (fun f => eval P f b zb) (fun f => eval P f (Block n b) z)).
    { exists 0. intros f Hf. cbn [eval]. fold zb. destruct (eval P f b zb) as [|p w z2| | |]; auto.
      intros Np. destruct (Nat.eqb_spec p (vsp z)); [contradiction|reflexivity]. }
    destruct o as [w|k w pend|m w pend|]; cbn [block_exit fst snd].
    + destruct D as (z2 & Ev & Iv3 & _ & St3).
      destruct (leave_block_ok z l _ w z2 true (Some n) Iv eq_refl Iv3) as (z3 & U & Iv4 & V4 & St4).
      exists z3. split; [|split; [exact Iv4|split; congruence]].
      eapply eventually_S2; [exact Ev|]. exists 0. intros f Hf E2. cbn [eval]. fold zb. rewrite E2. exact U.
    + replace pend with (pend ++ pendof [(vsp z, IB true (Some n))]) by (cbn; apply app_nil_r).
      eapply exits_push; [exact D|discriminate|discriminate|exact Pa|]. intros l1 i Q. exact Q.
    + destruct (Nat.eqb_spec m n) as [Em|Nm]; cbn [fst snd].
      * subst m. destruct (exits_here KB _ _ _ _ _ _ _ _ (or_intror eq_refl) D eq_refl) as (z2 & Ev & Iv3 & St3).
        { intros l1 i [_ Q]. inversion Q as [|? ? Q1 _]; subst. cbn [snd] in Q1. destruct Q1 as [_ Q1]. apply Q1. reflexivity. }
        destruct (leave_block_ok z l _ (delivered (ret_word w)) z2 true (Some n) Iv eq_refl Iv3) as (z3 & U & Iv4 & V4 & St4).
        exists z3. split; [|split; [exact Iv4|split; congruence]]. rewrite <- (delivered_ret w).
        eapply eventually_S2; [exact Ev|]. exists 0. intros f Hf E2. cbn [eval]. fold zb. rewrite E2.
        rewrite Nat.eqb_refl. exact U.
      * eapply exits_push_same; [exact D|reflexivity| |exact (proj1 (proj2 (proj2 (proj2 (proj2 (proj2 Iv))))))|exact Pa|].
        -- intros [[lx Q] _]. congruence.
        -- intros l1 i Q. exact (block_target_tail _ _ _ _ Q).
    + intros E1 E2. destruct (D E1 (f_equal (cons n) E2)) as (z2 & Ev & St2). exists z2. split; [|exact St2].
      destruct Pa as [F' Pa]. eapply eventually_S; [exact Ev|]. exists F'. intros f Hf E3. specialize (Pa f Hf). cbn beta in *.
      rewrite E3 in Pa. exact Pa.
  - (* ReturnFrom *) destruct (IH z l B B' Iv Et El St) as (z1 & [F E] & Iv1 & V1 & St1).
    assert (Hin' : In n (lexnames l)) by (rewrite El; apply in_or_app; left; exact Hin).
    destruct Iv as (_ & _ & J3 & _ & J5 & _).
    destruct (find_block_ok (mem z) n l (S (bl z)) J5 ltac:(lia) Hin') as (l1 & p & i & l2 & Es & Bt & Fd).
    destruct Iv1 as (I1 & I2 & I3 & I4 & I5 & I6 & I7).
    assert (Ki : kindof i = KB) by (destruct Bt as [[lx ->] _]; reflexivity).
    exists (set_bl z1 p), [], l1, p, i, l2. split; [exact Es|]. split; [exact Ki|]. split; [exact Bt|].
    rewrite <- J3 in Fd. rewrite Es in *. split.
    { unfold inv. cbn [app set_bl vsp sb ca bl pr mem]. rewrite I1, I2, I4.
      split; [symmetry; apply first_drop; discriminate|]. split; [symmetry; apply first_drop; discriminate|].
      split; [rewrite first_drop_same; cbn [first]; rewrite Ki; reflexivity|]. split; [symmetry; apply first_drop; discriminate|].
      split; [apply chain_drop; exact I5|]. split; [|exact I7]. apply below_app in I6. apply below_app.
      split; [apply below_drop|]; tauto. }
    split; [constructor|]. split; [reflexivity|]. split; [exact St1|].
    split.
    + intros s3 [F3 U] R. exists (S (F + F3)). intros [|f] Hf; [lia|]. rewrite eval_return.
      rewrite Fd, (E f), (U f) by lia. cbn [reg] in R. rewrite R. reflexivity.
    + intros r Hr [F3 U]. exists (S (F + F3)). intros [|f] Hf; [lia|]. rewrite eval_return.
      rewrite Fd, (E f), (U f) by lia. destruct r; try contradiction; reflexivity.
  - intros ET EL. destruct Iv as (_ & _ & J3 & _ & J5 & _). rewrite EL in Hn.
    pose proof (find_block_none (mem z) n l (S (bl z)) J5 ltac:(lia) Hn) as Fd. rewrite <- J3 in Fd.
    exists z. split; [|exact St]. exists 1. intros [|f] Hf; [lia|]. rewrite eval_return. rewrite Fd. reflexivity.
  - assert (Hin' : In n (lexnames l)) by (rewrite El; apply in_or_app; left; exact Hin).
    pose proof Iv as (_ & _ & J3 & _ & J5 & _).
    destruct (find_block_ok (mem z) n l (S (bl z)) J5 ltac:(lia) Hin') as (l1 & p & i & l2 & Es & Bt & Fd). rewrite <- J3 in Fd.
    eapply does_hands; [exact (IH z l B B' Iv Et El St)|exact N|]. exists 0. intros f _. rewrite eval_return. rewrite Fd.
    destruct (eval P f e z); auto.
  - (* Loop *) destruct (IH z l B B' Iv Et El St) as (z1 & [F E] & R). exists z1. split; [|exact R].
    exists (S F). intros [|f] Hf; [lia|]. cbn [eval]. rewrite (E f) by lia. reflexivity.
  - destruct (IH1 z l B B' Iv Et El St) as (z1 & [F1 E1] & Iv1 & V1 & St1).
    destruct (IH2 z1 l B B' Iv1 Et El St1) as (z2 & [F2 E2] & Iv2 & V2 & St2). rewrite <- V1, <- V2.
    eapply does_same; [exact (IH3 z2 l B B' Iv2 Et El St2)|]. exists (F1 + F2). intros f Hf.
    assert (U : eval P (S f) (Loop c b) z = match eval P f c z with
            | MVal v s1 => if Z.eqb v NILw then MVal NILw s1
                           else match eval P f b s1 with MVal _ s2 => eval P f (Loop c b) s2 | r => r end
            | r => r end) by reflexivity.
    rewrite U, (E1 f) by lia. destruct (Z.eqb_spec v NILw); [contradiction|]. rewrite (E2 f) by lia. reflexivity.
  - eapply does_hands; [exact (IH z l B B' Iv Et El St)|exact N|]. exists 0. intros f _. cbn [eval].
    destruct (eval P f c z); auto.
  - destruct (IH1 z l B B' Iv Et El St) as (z1 & [F1 E1] & Iv1 & V1 & St1).
    eapply does_hands; [exact (IH2 z1 l B B' Iv1 Et El St1)|exact N|]. exists F1. intros f Hf. cbn [eval]. rewrite (E1 f Hf).
    destruct (Z.eqb_spec v NILw); [contradiction|]. destruct (eval P f b z1); auto.
  - (* Protect *) pose proof (inv_mkprotect _ _ c Iv) as Iv2. set (zb := mkprotect z c) in *.
    destruct (IH1 zb _ B B' Iv2 Et El St) as (z1 & [F1 E1] & Iv1 & V1 & St1).
    pose proof (leave_protect z l z1 c Iv Iv1) as Iv3. set (z2 := set_pr (set_vsp z1 (vsp z)) (pr z)) in *.
    destruct (IH2 z2 l B B' Iv3 Et El St1) as (z3 & [F2 E2] & Iv4 & V4 & St4).
    exists z3. split; [|split; [exact Iv4|split; [exact V4|exact St4]]].
    exists (S (F1 + F2)). intros [|f] Hf; [lia|]. cbn [eval]. fold zb. rewrite (E1 f) by lia. fold z2. rewrite (E2 f) by lia. reflexivity.
  - pose proof (inv_mkprotect _ _ c Iv) as Iv2. set (zb := mkprotect z c) in *.
    destruct (IH1 zb _ B B' Iv2 Et El St) as (z1 & [F1 E1] & Iv1 & V1 & St1).
    pose proof (leave_protect z l z1 c Iv Iv1) as Iv3. set (z2 := set_pr (set_vsp z1 (vsp z)) (pr z)) in *.
    eapply does_hands; [exact (IH2 z2 l B B' Iv3 Et El St1)|exact N|]. exists F1. intros f Hf. cbn [eval]. fold zb.
    rewrite (E1 f Hf). fold z2. destruct (eval P f c z2); auto.
  - pose proof (inv_mkprotect _ _ c Iv) as Iv2. set (zb := mkprotect z c) in *.
    pose proof (IH1 zb _ B B' Iv2 Et El St) as D.
    assert (Ho : hands_on (fun f => eval P f e zb) (fun f => eval P f (Protect e c) z)).
    { exists 0. intros f _. cbn [eval]. fold zb. destruct (eval P f e zb); auto. }
    destruct o as [w'|k w' pend|n w' pend|]; cbn [leaves] in Lv; try contradiction.
    + eapply exits_protect; [left; reflexivity|exact D|exact IH2|exact Ho|]. intros l1 i Q. exact Q.
    + eapply exits_protect; [right; reflexivity|exact D|exact IH2|exact Ho|]. intros l1 i Q. exact (block_target_tail _ _ _ _ Q).
  - pose proof (inv_mkprotect _ _ c Iv) as Iv2. set (zb := mkprotect z c) in *.
    pose proof (IH1 zb _ B B' Iv2 Et El St) as D.
    assert (Ho : hands_on (fun f => eval P f e zb) (fun f => eval P f (Protect e c) z)).
    { exists 0. intros f _. cbn [eval]. fold zb. destruct (eval P f e zb); auto. }
    eapply exits_protect_throw; [exact D|exact Et|exact IH2|exact Ho].
  - pose proof (inv_mkprotect _ _ c Iv) as Iv2. set (zb := mkprotect z c) in *.
    pose proof (IH1 zb _ B B' Iv2 Et El St) as D.
    assert (Ho : hands_on (fun f => eval P f e zb) (fun f => eval P f (Protect e c) z)).
    { exists 0. intros f _. cbn [eval]. fold zb. destruct (eval P f e zb); auto. }
    intros ET EL. eapply exits_protect_err; [exact D|exact ET|exact IH2|exact Ho].
  - pose proof (inv_mkprotect _ _ c Iv) as Iv2. set (zb := mkprotect z c) in *.
    pose proof (IH zb _ B B' Iv2 Et El St) as D. intros E1 E2. destruct (D E1 E2) as (z1 & Ev & St1).
    exists z1. split; [|exact St1]. eapply eventually_S; [exact Ev|]. exists 0. intros f _ E3. cbn [eval]. fold zb. rewrite E3. reflexivity.
  - (* Call *) pose proof (inv_makeblock _ _ (Some g) false Iv) as Iv2. cbn iota in Iv2.
    set (zb := makeblock z (Some g) 0) in *.
    pose proof (IH zb _ B [] Iv2 Et eq_refl St) as D.
    assert (Pa : passes (vsp z) (fun f => eval P f (P g) zb) (fun f => eval P f (Call g) z)).
    { exists 0. intros f Hf. cbn [eval]. unfold funlambda. fold zb. destruct (eval P f (P g) zb) as [|p w z2| | |]; auto.
      intros Np. destruct (Nat.eqb_spec p (vsp z)); [contradiction|reflexivity]. }
    destruct o as [w|k w pend|m w pend|]; cbn [block_exit fst snd].
    + destruct D as (z2 & Ev & Iv3 & _ & St3).
      destruct (leave_function_ok z l w z2 false (Some g) Iv Iv3) as (z3 & U & Iv4 & V4 & St4).
      exists z3. split; [|split; [exact Iv4|split; congruence]].
      eapply eventually_S2; [exact Ev|]. exists 0. intros f Hf E2. cbn [eval]. unfold funlambda. fold zb. rewrite E2. exact U.
    + replace pend with (pend ++ pendof [(vsp z, IB false (Some g))]) by (cbn; apply app_nil_r).
      eapply exits_push; [exact D|discriminate|discriminate|exact Pa|]. intros l1 i Q. exact Q.
    + destruct (Nat.eqb_spec m g) as [Em|Nm]; cbn [fst snd].
      * subst m. destruct (exits_here KB _ _ _ _ _ _ _ _ (or_intror eq_refl) D eq_refl) as (z2 & Ev & Iv3 & St3).
        { intros l1 i [_ Q]. inversion Q as [|? ? Q1 _]; subst. cbn [snd] in Q1. destruct Q1 as [_ Q1]. apply Q1. reflexivity. }
        destruct (leave_function_ok z l (delivered (ret_word w)) z2 false (Some g) Iv Iv3) as (z3 & U & Iv4 & V4 & St4).
        exists z3. split; [|split; [exact Iv4|split; congruence]]. rewrite <- (delivered_ret w).
        eapply eventually_S2; [exact Ev|]. exists 0. intros f Hf E2. cbn [eval]. unfold funlambda. fold zb. rewrite E2.
        rewrite Nat.eqb_refl. exact U.
      * eapply exits_push_same; [exact D|reflexivity| |exact (proj1 (proj2 (proj2 (proj2 (proj2 (proj2 Iv))))))|exact Pa|].
        -- intros [[lx Q] _]. congruence.
        -- intros l1 i Q. exact (block_target_tail _ _ _ _ Q).
    + intros E1 E2. destruct (D E1 eq_refl) as (z2 & Ev & St2). exists z2. split; [|exact St2].
      destruct Pa as [F' Pa]. eapply eventually_S; [exact Ev|]. exists F'. intros f Hf E3. specialize (Pa f Hf). cbn beta in *.
      rewrite E3 in Pa. exact Pa.
Qed.

End Proofs.
