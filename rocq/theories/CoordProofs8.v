(** Proofs about cascaded coordinates: every state a program reaches. *)
From Coq Require Import List Arith Bool Lia Ring.
From Verif Require Import CoordModel CoordSpec CoordProofs CoordProofs2 CoordProofs3 CoordProofs4 CoordProofs5 CoordProofs6 CoordProofs7.
Import ListNotations.

(** more fuel does not change a result *)
Section Mono.
Variables (F : Type) (add mul : F -> F -> F) (neg : F -> F) (bad : coords F -> coords F).
Definition lasts {A} (op : nat -> option A) : Prop := forall f r, op f = Some r -> forall f', f <= f' -> op f' = Some r.
Definition got {A} (o : option A) (d : A) : A := match o with Some a => a | None => d end.
Lemma lasts_runs {A} (op : nat -> option A) f (d : A) : lasts op -> match op f with Some _ => true | None => false end = true -> runs op (got (op f) d).
Proof using Type. intros L H. unfold got. destruct (op f) as [a|] eqn:E; [|discriminate]. exists f. intros f' Hf. exact (L f a E f' Hf). Qed.
Lemma l_const {A} (o : option A) : lasts (fun _ => o). Proof using Type. intros f r H f' _. exact H. Qed.
Lemma l_bind {A B} (m : nat -> option A) (k : nat -> A -> option B) : lasts m -> (forall a, lasts (fun f => k f a)) -> lasts (fun f => match m f with Some a => k f a | None => None end).
Proof using Type. intros Hm Hk f r H f' Hf. destruct (m f) as [a|] eqn:E; [|discriminate]. rewrite (Hm f a E f' Hf). exact (Hk a f r H f' Hf). Qed.
Lemma l_world s n : lasts (fun f => worldcoords F add mul bad f s n). Proof using Type. intros f r H f' Hf. exact (world_mono F add mul bad f s n r H f' Hf). Qed.
Lemma l_mark s n : lasts (fun f => mark F f s n). Proof using Type. intros f r H f' Hf. exact (mark_mono F f s n r H f' Hf). Qed.
Ltac la := repeat (cbv beta; first [apply l_const | apply l_world | apply l_mark
  | match goal with |- lasts (fun f => match ?x with _ => _ end) => destruct x end
  | apply l_bind; [|intros ?]]).
Lemma l_newcoords s n a : lasts (fun f => newcoords F f s n a). Proof using Type. unfold newcoords. la. Qed.
Lemma l_parent s n : lasts (fun f => parentcoords F add mul bad f s n). Proof using Type. unfold parentcoords. la. Qed.
Lemma l_wrt s w : lasts (fun f => wrt_coords F add mul bad f s w). Proof using Type. unfold wrt_coords. la. Qed.
Ltac lb := repeat (cbv beta zeta; unfold new, inverse; cbv beta iota zeta; first [apply l_const | apply l_world | apply l_mark | apply l_newcoords | apply l_parent | apply l_wrt
  | match goal with |- lasts (fun f => match ?x with _ => _ end) => destruct x end
  | apply l_bind; [|intros ?]]).
Lemma l_transform s n c w : lasts (fun f => transform F add mul neg bad f s n c w). Proof using Type. unfold transform. lb. Qed.
Lemma l_move_to s n c w : lasts (fun f => move_to F add mul neg bad f s n c w). Proof using Type. unfold move_to. lb. Qed.
Lemma l_translate s n v w : lasts (fun f => translate F add mul bad f s n v w). Proof using Type. unfold translate, parent_orientation. lb. Qed.
Lemma l_rotate s n g w : lasts (fun f => rotate_with_matrix F add mul bad f s n g w). Proof using Type. unfold rotate_with_matrix. lb. Qed.
Lemma l_dissoc s p c : lasts (fun f => dissoc F add mul bad f s p c). Proof using Type. unfold dissoc. lb. Qed.
Lemma l_obey s c p : lasts (fun f => obey F add mul bad f s c p). Proof using Type. unfold obey. repeat (first [apply l_dissoc | progress lb]). Qed.
Lemma l_assoc s p c o : lasts (fun f => assoc F add mul neg bad f s p c o). Proof using Type. unfold assoc. repeat (first [apply l_obey | progress lb]). Qed.
End Mono.

Section Reach.
Variables (F : Type) (zero one : F) (add mul sub : F -> F -> F) (neg : F -> F).
Hypothesis rth : ring_theory zero one add mul sub neg (@eq F).
Variable bad : coords F -> coords F.
Notation st := (st F). Notation tc := (tc F add mul). Notation inv := (inv F add mul neg). Notation U := (unit_coords F zero one).
Notation pose := (pose add mul). Notation worldcoords := (worldcoords F add mul bad). Notation newcoords := (newcoords F).
Notation nodes := (nodes F). Notation mem := (mem F). Notation next := (next F). Notation args := (args F). Notation put := (put F).
Notation Inv := (Inv F zero one add mul). Notation InvE := (InvE F zero one add mul). Notation calm := (calm F). Notation shape := (shape F).
Notation depth := (depth F). Notation orth := (orth zero one add mul). Notation rigid := (rigid zero one add mul). Notation mother := (mother zero one add mul).
Notation parentcoords := (parentcoords F add mul bad). Notation tcp := (tcp F add mul bad). Notation during := (during F zero one add mul).
Notation reference := (reference zero one add mul). Notation seen_from := (seen_from add mul neg). Notation usable := (usable zero one add mul).
Notation wrt_coords := (wrt_coords F add mul bad).
Implicit Types (s si : st) (E : nat -> Prop) (v : vec F).
Let tassoc := tc_assoc F zero one add mul sub neg rth.
Let unit_l := tc_1l F zero one add mul sub neg rth.
Let unit_r := tc_1r F zero one add mul sub neg rth.
Let right_inv := inv_r F zero one add mul sub neg rth.
Let left_inv := inv_l F zero one add mul sub neg rth.
Let none : nat -> Prop := fun _ => False.
Let self (n : nat) : nat -> Prop := fun m => m = n.

Notation transform_vector := (transform_vector F add mul). Notation inverse_transform_vector := (inverse_transform_vector F add mul neg).
Notation mm := (mm F add mul). Notation mv := (mv F add mul). Notation mt := (mt F). Notation va := (va F add). Notation arrives := (arrives F zero one add mul).
Notation mul_assoc := (mm_assoc F zero one add mul sub neg rth).
Ltac osolve := repeat first [apply (orth_tc _ _ _ _ _ _ _ rth) | apply orth_inv | apply (orth_mm _ _ _ _ _ _ _ rth) | apply orth_mt]; auto.
Ltac mems := repeat (rewrite ?mem_put, ?Nat.eqb_refl; match goal with |- context [if ?a =? ?b then _ else _] => destruct (Nat.eqb_spec a b); [congruence|] end); rewrite ?mem_put, ?Nat.eqb_refl.

Notation step := (step zero one add mul neg bad). Notation history := (history zero one add mul neg bad). Notation arrived := (arrived add mul).

Lemma put_ok s a (v : coords F) : Inv s -> rigid s -> free s a -> Inv (put s a v) /\ rigid (put s a v) /\ at_rest add mul s (put s a v).
Proof.
  intros I R [Ha Fa]. pose proof (i_s _ _ _ _ _ _ _ I) as [B1 B2 B3 B4 B5 B6].
  assert (forall x, x <> a -> mem (put s a v) x = mem s x) as Mx by (intros x Hx; rewrite mem_put; destruct (Nat.eqb_spec x a); [contradiction|reflexivity]).
  assert (forall m, live s m -> local (put s a v) m = local s m) as Lo by (intros m Lm; unfold local; rewrite <- (Mx (addr s m)) by (apply Fa; exact Lm); reflexivity).
  assert (forall m, ~ live s m -> par s m = None) as Pn by (intros m Nm; unfold par; destruct (nodes s m) eqn:E; [exfalso; apply Nm; unfold live; rewrite E; discriminate|reflexivity]).
  assert (forall m, live s m -> mem (put s a v) (cache s m) = mem s (cache s m)) as Lc by (intros m Lm; apply Mx, Fa, Lm).
  assert (Inv (put s a v)) as I'.
  { pose proof I as I0. destruct I as [J1 J2 J3 J4 J5]. constructor.
    - destruct J1 as (H & HB). exists H. intros m Lm. destruct (HB m Lm) as (k & Hk & Dk). exists k. split; [exact Hk|]. clear - Dk.
      induction Dk as [m Lm Pm|m q k Lm Pm _ IH]; [apply depth_0; assumption|apply depth_S with q; assumption].
    - exact J2.
    - constructor; [exact B1|exact B2|exact B3|exact B4|exact B5|]. rewrite Mx by lia. exact B6.
    - exact J4.
    - intros m Lm Fm _. specialize (J5 m Lm Fm (fun H => H)). unfold CoordProofs.coh1 in *. change (cache (put s a v) m) with (cache s m). change (par (put s a v) m) with (par s m).
      rewrite Lo, Lc by exact Lm. rewrite J5. destruct (par s m) as [q|] eqn:Eq; [|reflexivity]. change (cache (put s a v) q) with (cache s q).
      rewrite Lc; [reflexivity|]. apply (parent_live F zero one add mul (fun _ => False) s m q); [exact I0|exact Eq]. }
  split; [exact I'|]. split; [intros m Lm; rewrite Lo by exact Lm; apply R; exact Lm|].
  apply (rest F zero one add mul); auto; [intros m; tauto|]. intros m T. apply pose_above. intros x _ Lx. split; [exact Lx|]. split; [reflexivity|apply Lo; exact Lx].
Qed.
Lemma arg_ok s g (m : mtx F) : Inv s -> rigid s -> Inv (set_arg F s g m) /\ rigid (set_arg F s g m) /\ at_rest add mul s (set_arg F s g m).
Proof.
  intros I R. assert (Inv (set_arg F s g m)) as I'.
  { apply (d_inv F zero one add mul none s 0). apply during_arg; [intros x []|]. apply during_refl. exact I. }
  split; [exact I'|]. split; [exact R|]. apply (rest F zero one add mul); auto; [intros x; tauto|]. intros x T. apply pose_above. intros y _ Ly. split; [exact Ly|]. split; reflexivity.
Qed.
Lemma start_ok g : Inv (St F (fun _ => None) (fun _ => U) 1 g) /\ rigid (St F (fun _ => None) (fun _ => U) 1 g).
Proof.
  assert (forall n, ~ live (St F (fun _ => None) (fun _ => U) 1 g) n) as N by (intros n H; apply H; reflexivity).
  split; [|intros n L; destruct (N n L)]. constructor.
  - exists 0. intros n L. destruct (N n L).
  - intros p x. cbn. split; [intros []|discriminate].
  - constructor; try (intros x y Lx; destruct (N x Lx)); [intros x Lx; destruct (N x Lx)|cbn; lia|reflexivity].
  - intros m p. discriminate.
  - intros m L. destruct (N m L).
Qed.
Lemma pose_have s n : Inv s -> live s n -> exists W, pose s n W.
Proof. intros I L. destruct (inv_depth F zero one add mul _ s n I L) as (k & Hk). exact (pose_ex F add mul s n k Hk). Qed.
Lemma reference_have s n w : Inv s -> live s n -> usable s n w -> exists Y, reference s n w Y.
Proof.
  intros I L Us. destruct w; cbn [CoordSpec.reference].
  - apply pose_have; assumption.
  - unfold mother. destruct (par s n) as [p|] eqn:E; [|eauto]. apply pose_have; [exact I|]. exact (parent_live F zero one add mul _ s n p I E).
  - eauto.
  - apply pose_have; [exact I|exact Us].
  - eauto.
Qed.
Lemma still_rigid s s' : rigid s -> still F zero one add mul s s' -> rigid s'.
Proof. intros R (_ & A1 & _ & A3) m Lm. apply A1 in Lm. rewrite A3 by exact Lm. apply R. exact Lm. Qed.

Lemma step_ok s s' : Inv s -> rigid s -> step s s' -> Inv s' /\ rigid s'.
Proof.
  intros I R H. pose proof (fun n => pose_have s n I) as PH. destruct H.
  - destruct (new_ok F zero one add mul bad s v I) as (A & B & _). auto.
  - destruct (put_ok s a v I R H) as (A & B & _). auto.
  - destruct (arg_ok s g m I R) as (A & B & _). auto.
  - destruct (create_ok F zero one add mul bad s n v I H) as (A & B & _). auto.
  - destruct (PH n H) as (W & HW). destruct (world_place F zero one add mul bad s n W I HW) as (s1 & R1 & St & _). pose proof (runs_fun _ _ _ R1 H0) as E. injection E as -> _. split; [apply St|exact (still_rigid _ _ R St)].
  - destruct (dissoc_ok F zero one add mul sub neg rth bad s p c I H H0) as (s1 & R1 & A & B & _). rewrite (runs_fun _ _ _ H1 R1). auto.
  - destruct (clear_ok F zero one add mul sub neg rth bad s p I H) as (s1 & R1 & A & B & _). rewrite (runs_fun _ _ _ H0 R1). auto.
  - destruct (assoc_ok F zero one add mul sub neg rth bad s p c I R H H0 H1) as (s1 & R1 & A & B & _). rewrite (runs_fun _ _ _ H2 R1). auto.
  - destruct (PH p H) as (V & HV). destruct (assoc_at_ok F zero one add mul sub neg rth bad s p c a V I R H H0 H1 H2 H3 H4 HV) as (s1 & R1 & A & B & _). rewrite (runs_fun _ _ _ H5 R1). auto.
  - destruct (PH n H) as (W & HW), (reference_have s n w I H H2) as (Y & HY).
    destruct (transform_ok F zero one add mul sub neg rth bad s n c w W Y I R H H0 H1 H2 H3 HW HY) as (s1 & R1 & A & B & _). rewrite (runs_fun _ _ _ H4 R1). auto.
  - destruct (PH n H) as (W & HW), (reference_have s n w I H H3) as (Y & HY).
    destruct (move_to_ok F zero one add mul sub neg rth bad s n c w W Y I R H H0 H1 H2 H3 HW HY) as (s1 & R1 & A & B & _). rewrite (runs_fun _ _ _ H4 R1). auto.
  - destruct (PH n H) as (W & HW), (reference_have s n w I H H0) as (Y & HY).
    destruct (translate_ok F zero one add mul sub neg rth bad s n v w W Y I R H H0 HW HY) as (s1 & R1 & A & B & _). rewrite (runs_fun _ _ _ H1 R1). auto.
  - destruct (PH n H) as (W & HW), (reference_have s n w I H H0) as (Y & HY).
    destruct (locate_ok F zero one add mul sub neg rth bad s n v w W Y I R H H0 HW HY) as (s1 & R1 & A & B & _). rewrite (runs_fun _ _ _ H1 R1). auto.
  - destruct (PH n H) as (W & HW), (reference_have s n w I H H1) as (Y & HY).
    destruct (rotate_ok F zero one add mul sub neg rth bad s n g w W Y I R H H0 H1 HW HY) as (s1 & R1 & A & B & _). rewrite (runs_fun _ _ _ H2 R1). auto.
  - destruct (PH n H) as (W & HW), (reference_have s n w I H H1) as (Y & HY).
    destruct (orient_ok F zero one add mul sub neg rth bad s n m w W Y I R H H0 H1 HW HY) as (s1 & R1 & A & B & _). rewrite (runs_fun _ _ _ H2 R1). auto.
  - destruct (PH n H) as (W & HW), (PH m H0) as (W2 & HW2), (reference_have s n w I H H1) as (Y & HY).
    destruct (transformation_ok F zero one add mul sub neg rth bad s n m w W W2 Y I R H H1 HW HW2 HY) as (s1 & a1 & R1 & St & _).
    pose proof (runs_fun _ _ _ H2 R1) as E. injection E as -> _. split; [apply St|exact (still_rigid _ _ R St)].
Qed.
Lemma history_ok s : history s -> Inv s /\ rigid s.
Proof. induction 1 as [g|s s' _ [I R] Hs]; [apply start_ok|exact (step_ok s s' I R Hs)]. Qed.
End Reach.
