(** Proofs about cascaded coordinates: :assoc and :dissoc. *)
From Coq Require Import List Arith Bool Lia Ring.
From Verif Require Import CoordModel CoordSpec CoordProofs CoordProofs2 CoordProofs3 CoordProofs4 CoordProofs5 CoordProofs6.
Import ListNotations.

Section Assoc.
Variables (F : Type) (zero one : F) (add mul sub : F -> F -> F) (neg : F -> F).
Hypothesis rth : ring_theory zero one add mul sub neg (@eq F).
Variable bad : coords F -> coords F.
Notation st := (st F). Notation tc := (tc F add mul). Notation inv := (inv F add mul neg). Notation U := (unit_coords F zero one).
Notation pose := (pose add mul). Notation worldcoords := (worldcoords F add mul bad). Notation newcoords := (newcoords F).
Notation nodes := (nodes F). Notation mem := (mem F). Notation next := (next F). Notation args := (args F). Notation put := (put F).
Notation Inv := (Inv F zero one add mul). Notation InvE := (InvE F zero one add mul). Notation calm := (calm F). Notation shape := (shape F).
Notation depth := (depth F). Notation orth := (orth zero one add mul). Notation rigid := (rigid zero one add mul). Notation mother := (mother zero one add mul).
Notation parentcoords := (parentcoords F add mul bad). Notation tcp := (tcp F add mul bad). Notation during := (during F zero one add mul).
Notation reference := (reference zero one add mul). Notation seen_from := (seen_from add mul neg). Notation usable := (usable zero one add mul).
Notation wrt_coords := (wrt_coords F add mul bad).
Implicit Types (s si : st) (E : nat -> Prop) (v : vec F).
Let tassoc := tc_assoc F zero one add mul sub neg rth.
Let unit_l := tc_1l F zero one add mul sub neg rth.
Let unit_r := tc_1r F zero one add mul sub neg rth.
Let right_inv := inv_r F zero one add mul sub neg rth.
Let left_inv := inv_l F zero one add mul sub neg rth.
Let none : nat -> Prop := fun _ => False.
Let self (n : nat) : nat -> Prop := fun m => m = n.

Notation transform_vector := (transform_vector F add mul). Notation inverse_transform_vector := (inverse_transform_vector F add mul neg).
Notation mm := (mm F add mul). Notation mv := (mv F add mul). Notation mt := (mt F). Notation va := (va F add). Notation arrives := (arrives F zero one add mul).
Notation mul_assoc := (mm_assoc F zero one add mul sub neg rth).
Ltac osolve := repeat first [apply (orth_tc _ _ _ _ _ _ _ rth) | apply orth_inv | apply (orth_mm _ _ _ _ _ _ _ rth) | apply orth_mt]; auto.
Ltac mems := repeat (rewrite ?mem_put, ?Nat.eqb_refl; match goal with |- context [if ?a =? ?b then _ else _] => destruct (Nat.eqb_spec a b); [congruence|] end); rewrite ?mem_put, ?Nat.eqb_refl.

Lemma rest s s' : Inv s -> Inv s' -> (forall m, live s' m <-> live s m) -> (forall m T, pose s m T -> pose s' m T) -> at_rest add mul s s'.
Proof.
  intros I I' HL H. split; [exact HL|]. intros m T. split; [apply H|]. intros H'. assert (live s m) as L by (apply HL; exact (pose_live F add mul s' m T H')).
  destruct (inv_depth F zero one add mul _ s m I L) as (k & Hk). destruct (pose_ex F add mul s m k Hk) as (T0 & H0).
  rewrite (pose_fun F add mul s' m T0 (H m T0 H0) T H'). exact H0.
Qed.
(** the local coordinates of [c] become the object [a], its mother changes as well *)
Lemma cut_depth s s' c m k : (forall x, live s' x <-> live s x) -> (forall x, par s' x = if x =? c then None else par s x) -> depth s m k -> exists j, j <= k /\ depth s' m j.
Proof.
  clear rth tassoc unit_l unit_r right_inv left_inv. intros HL HP. induction 1 as [m L P|m p k L P _ (j & Hj & IH)].
  - exists 0. split; [lia|]. constructor; [apply HL; exact L|]. rewrite HP. destruct (m =? c); [reflexivity|exact P].
  - destruct (Nat.eqb_spec m c) as [->|N].
    + exists 0. split; [lia|]. constructor; [apply HL; exact L|]. rewrite HP, Nat.eqb_refl. reflexivity.
    + exists (S j). split; [lia|]. apply depth_S with p; [apply HL; exact L| |exact IH]. rewrite HP. destruct (Nat.eqb_spec m c); [contradiction|exact P].
Qed.
Lemma keep_depth s s' c p m k : (forall x, live s' x <-> live s x) -> (forall x, par s' x = if x =? c then Some p else par s x) -> ~ above s c m -> depth s m k -> depth s' m k.
Proof.
  clear rth tassoc unit_l unit_r right_inv left_inv. intros HL HP Na H. induction H as [m L P|m q k L P _ IH].
  - constructor; [apply HL; exact L|]. rewrite HP. destruct (Nat.eqb_spec m c) as [->|]; [exfalso; apply Na; constructor|exact P].
  - apply depth_S with q; [apply HL; exact L| |].
    + rewrite HP. destruct (Nat.eqb_spec m c) as [->|]; [exfalso; apply Na; constructor|exact P].
    + apply IH. intros Ha. apply Na. apply above_step with q; assumption.
Qed.
Lemma join_depth s s' c p m k H : (forall x, live s' x <-> live s x) -> (forall x, par s' x = if x =? c then Some p else par s x) -> ~ above s c p -> (exists j, j <= H /\ depth s p j) ->
  depth s m k -> exists j, j <= k + S H /\ depth s' m j.
Proof.
  clear rth tassoc unit_l unit_r right_inv left_inv. intros HL HP Na (jp & Hjp & Dp) D.
  assert (live s c -> depth s' c (S jp)) as Dc.
  { intros Lc. apply depth_S with p; [apply HL; exact Lc|rewrite HP, Nat.eqb_refl; reflexivity|]. apply (keep_depth s s' c p); assumption. }
  induction D as [m L P|m q k L P _ (j & Hj & IH)].
  - destruct (Nat.eqb_spec m c) as [->|N]; [exists (S jp); split; [lia|auto]|]. exists 0. split; [lia|]. constructor; [apply HL; exact L|]. rewrite HP. destruct (Nat.eqb_spec m c); [contradiction|exact P].
  - destruct (Nat.eqb_spec m c) as [->|N]; [exists (S jp); split; [lia|auto]|]. exists (S j). split; [lia|]. apply depth_S with q; [apply HL; exact L| |exact IH].
    rewrite HP. destruct (Nat.eqb_spec m c); [contradiction|exact P].
Qed.
(** what newcoords does for [c] in a state [s4] that differs from [s] in mothers and children only *)
Lemma rehang s s4 c e a : Inv s -> nodes s4 c = Some e -> live s c ->
  (forall x, live s4 x <-> live s x) -> (forall x, addr s4 x = addr s x) -> (forall x, cache s4 x = cache s x) -> (forall x, dirty s4 x = dirty s x) ->
  (forall x, x <> c -> par s4 x = par s x) -> (forall x, x < next s -> x <> a -> mem s4 x = mem s x) -> next s <= next s4 -> 0 < a < next s4 -> (next s <= a \/ free s a) ->
  (exists H, CoordProofs.bounded F s4 H) -> (forall p, above s4 c p -> CoordProofs.links F s4 p) ->
  exists s', runs (fun f => newcoords f s4 c a) s' /\ (forall x, live s' x <-> live s x) /\ (forall x, par s' x = par s4 x) /\ (forall x, CoordProofs.kids F s' x = CoordProofs.kids F s4 x) /\
    (forall x, live s x -> local s' x = if x =? c then mem s4 a else local s x) /\ (forall x, addr s' x = if x =? c then a else addr s x) /\ (forall x, cache s' x = cache s x) /\
    mem s' = mem s4 /\ next s' = next s4 /\ CoordProofs.mono F s' /\ CoordProofs.coh F add mul none s' /\ CoordProofs.sep F zero one s' /\ exists H, CoordProofs.bounded F s' H.
Proof.
  clear rth tassoc unit_l unit_r right_inv left_inv. intros I Hd Lc HL HA HW HD HP HM HN Ha Hf HB HK. destruct (of_node F s4 c e Hd) as (_ & Pe & Ae & We & Ke & _).
  pose proof (i_s _ _ _ _ _ _ _ I) as [B1 B2 B3 B4 B5 B6].
  assert (forall x, live s x -> addr s x <> a /\ cache s x <> a) as Fr.
  { intros x Lx. destruct Hf as [Hf|[_ Hf]]; [destruct (B4 x Lx); lia|apply Hf; exact Lx]. }
  assert (forall x, addr (setn F s4 c (set_loc e a)) x = if x =? c then a else addr s x) as HA0.
  { intros x. rewrite addr_setn, HA. reflexivity. }
  assert (forall x, cache (setn F s4 c (set_loc e a)) x = cache s x) as HW0.
  { intros x. rewrite wca_setn, HW. cbn [set_loc wc]. destruct (Nat.eqb_spec x c) as [->|]; [rewrite <- We; apply HW|reflexivity]. }
  assert (forall x, live (setn F s4 c (set_loc e a)) x <-> live s x) as HL0.
  { intros x. rewrite live_setn, HL. split; [intros [->|]; assumption|auto]. }
  destruct (settle F zero one add mul s4 c e a) as (s' & R & S1 & Q1 & Q2 & Q3 & Q4 & Q5 & Q6 & Q7); auto.
  - intros m q Nm Pm. rewrite !HD. rewrite HP in Pm by exact Nm. apply (i_m _ _ _ _ _ _ _ I). exact Pm.
  - intros m Lm Fm Na. apply HL in Lm. rewrite HD in Fm. assert (m <> c) as Nm by (intros ->; apply Na; constructor).
    pose proof (i_c _ _ _ _ _ _ _ I m Lm Fm (fun H => H)) as Hm. unfold CoordProofs.coh1, local in *. rewrite HP, HA, HW by exact Nm.
    destruct (Fr m Lm) as [N1 N2]. destruct (B4 m Lm) as [[_ O1] [_ O2]]. rewrite !HM by assumption. rewrite Hm. destruct (par s m) as [p|] eqn:Ep; [|reflexivity].
    pose proof (parent_live F zero one add mul _ s m p I Ep) as Lp. destruct (Fr p Lp) as [_ N3]. destruct (B4 p Lp) as [_ [_ O3]]. rewrite HW, HM by assumption. reflexivity.
  - constructor.
    + intros x y Lx Ly. apply HL0 in Lx, Ly. rewrite HA0, HW0. destruct (x =? c); [apply not_eq_sym, Fr; exact Ly|apply B1; assumption].
    + intros x y Lx Ly Nxy. apply HL0 in Lx, Ly. rewrite !HA0. destruct (Nat.eqb_spec x c) as [->|]; destruct (Nat.eqb_spec y c) as [->|].
      * congruence.
      * apply not_eq_sym, Fr. exact Ly.
      * apply Fr. exact Lx.
      * apply B2; assumption.
    + intros x y Lx Ly. apply HL0 in Lx, Ly. rewrite !HW0. apply B3; assumption.
    + intros x Lx. apply HL0 in Lx. rewrite HA0, HW0. cbn [setn CoordModel.next]. destruct (B4 x Lx). destruct (x =? c); lia.
    + cbn [setn CoordModel.next]. lia.
    + cbn [setn CoordModel.mem]. rewrite HM; [exact B6|exact B5|lia].
  - assert (forall x, addr s' x = if x =? c then a else addr s x) as HA' by (intros x; destruct (S1 x) as (_ & _ & -> & _); apply HA0).
    exists s'. split; [exact R|]. split; [intros x; destruct (S1 x) as (E1 & _); rewrite E1; apply HL0|].
    split; [intros x; destruct (S1 x) as (_ & -> & _); rewrite par_setn; cbn [set_loc parent]; destruct (Nat.eqb_spec x c) as [->|]; congruence|].
    split; [intros x; destruct (S1 x) as (_ & _ & _ & _ & ->); rewrite kids_setn; cbn [set_loc desc]; destruct (Nat.eqb_spec x c) as [->|]; congruence|].
    split; [|split; [exact HA'|split; [intros x; destruct (S1 x) as (_ & _ & _ & -> & _); apply HW0|auto 10]]].
    intros x Lx. unfold local. rewrite HA', Q1. destruct (x =? c); [reflexivity|]. apply HM; [apply B4; exact Lx|apply Fr; exact Lx].
Qed.
Lemma memb_In x l : memb x l = true <-> In x l.
Proof. clear. unfold memb. rewrite existsb_exists. split; [intros (y & Hy & E); apply Nat.eqb_eq in E; congruence|intros H; exists x; split; [exact H|apply Nat.eqb_refl]]. Qed.
Definition left s p c m : option nat := if m =? c then match par s c with Some q => if q =? p then None else Some q | None => None end else par s m.
Theorem dissoc_ok s p c : Inv s -> live s p -> live s c ->
  exists s', runs (fun f => dissoc F add mul bad f s p c) s' /\ Inv s' /\ (rigid s -> rigid s') /\ at_rest add mul s s' /\ (forall m, par s' m = left s p c m) /\
    (forall x, free s x -> free s' x /\ mem s' x = mem s x) /\ (forall m, m <> c -> live s m -> local s' m = local s m).
Proof.
  intros I Lp Lc. destruct (live_node F s p Lp) as [dp Hdp]. destruct (of_node F s p dp Hdp) as (_ & _ & _ & _ & Kp & _).
  destruct (memb c (desc dp)) eqn:Em.
  2:{ exists s. split; [exists 0; intros f _; unfold dissoc; rewrite Hdp, Em; reflexivity|]. split; [exact I|]. split; [auto|]. split; [split; tauto|]. split; [|auto 6].
    intros m. unfold left. destruct (Nat.eqb_spec m c) as [->|]; [|reflexivity]. destruct (par s c) as [q|] eqn:Eq; [|reflexivity]. destruct (Nat.eqb_spec q p) as [->|]; [|reflexivity].
    apply (i_l _ _ _ _ _ _ _ I p c) in Eq. rewrite Kp in Eq. apply memb_In in Eq. congruence. }
  assert (par s c = Some p) as Pc by (apply (i_l _ _ _ _ _ _ _ I); rewrite Kp; apply memb_In; exact Em).
  assert (c <> p) as Ncp by (intros ->; apply (not_above_par F zero one add mul _ s p p I Pc); constructor).
  destruct (inv_depth F zero one add mul _ s c I Lc) as (k & Hk). destruct (pose_ex F add mul s c k Hk) as (W & HW).
  pose proof (during_refl F zero one add mul none s c I) as D0. assert (forall m : nat, none m -> m = c) as HF by (intros ? []).
  destruct (during_world F zero one add mul bad s c s none c W D0 HW (or_intror (fun _ _ H => H)) I Lc) as (s1 & (f1 & R1) & C1 & D1 & M1 & K1).
  set (a := next s1). set (s2 := snd (new F s1 (mem s1 (cache s c)))).
  pose proof (d_inv _ _ _ _ _ _ _ _ _ D1) as I1. pose proof (d_shape _ _ _ _ _ _ _ _ _ D1) as S1. pose proof (d_next _ _ _ _ _ _ _ _ _ D1) as N1.
  assert (live s1 p) as Lp1 by (apply S1; exact Lp). assert (live s1 c) as Lc1 by (apply S1; exact Lc).
  assert (par s1 c = Some p) as Pc1 by (destruct (S1 c) as (_ & -> & _); exact Pc).
  destruct (live_node F s1 p Lp1) as [d1 Hd1]. destruct (of_node F s1 p d1 Hd1) as (_ & Q1 & Q2 & Q3 & Q4 & Q5).
  destruct (live_node F s1 c Lc1) as [e1 He1]. destruct (of_node F s1 c e1 He1) as (_ & G1 & G2 & G3 & G4 & G5).
  set (s3 := setn F s2 p (set_desc d1 (remove Nat.eq_dec c (desc d1)))).
  set (s4 := setn F s3 c (set_parent e1 None)).
  assert (nodes s3 c = Some e1) as He3. { unfold s3, setn, upd. cbn [CoordModel.nodes]. destruct (Nat.eqb_spec c p); [contradiction|]. exact He1. }
  assert (forall x, live s4 x <-> live s1 x) as HL. { intros x. unfold s4, s3. rewrite !live_setn. split; [intros [->|[->|]]; assumption|auto]. }
  assert (forall x, par s4 x = if x =? c then None else par s1 x) as HP.
  { intros x. unfold s4, s3. rewrite !par_setn. cbn [set_parent set_desc parent]. destruct (Nat.eqb_spec x c) as [->|]; [reflexivity|]. destruct (Nat.eqb_spec x p) as [->|]; [congruence|reflexivity]. }
  assert (forall x, addr s4 x = addr s1 x) as HA.
  { intros x. unfold s4, s3. rewrite !addr_setn. cbn [set_parent set_desc loc]. destruct (Nat.eqb_spec x c) as [->|]; [congruence|]. destruct (Nat.eqb_spec x p) as [->|]; [congruence|reflexivity]. }
  assert (forall x, cache s4 x = cache s1 x) as HC.
  { intros x. unfold s4, s3. rewrite !wca_setn. cbn [set_parent set_desc wc]. destruct (Nat.eqb_spec x c) as [->|]; [congruence|]. destruct (Nat.eqb_spec x p) as [->|]; [congruence|reflexivity]. }
  assert (forall x, dirty s4 x = dirty s1 x) as HD.
  { intros x. unfold s4, s3. rewrite !flag_setn. cbn [set_parent set_desc changed]. destruct (Nat.eqb_spec x c) as [->|]; [congruence|]. destruct (Nat.eqb_spec x p) as [->|]; [congruence|reflexivity]. }
  assert (forall x, CoordProofs.kids F s4 x = if x =? p then remove Nat.eq_dec c (CoordProofs.kids F s1 p) else CoordProofs.kids F s1 x) as HK.
  { intros x. unfold s4, s3. rewrite !kids_setn. cbn [set_parent set_desc desc]. destruct (Nat.eqb_spec x c) as [->|].
    - destruct (Nat.eqb_spec c p); [contradiction|]. exact (eq_sym G4).
    - destruct (Nat.eqb_spec x p) as [->|]; [rewrite Q4; reflexivity|reflexivity]. }
  assert (forall q, CoordProofs.links F s4 q) as HLk.
  { intros q x. rewrite HK, HP. destruct (Nat.eqb_spec q p) as [->|Nq].
    - split.
      + intros Hi. apply in_remove in Hi. destruct Hi as [Hi Nx]. destruct (Nat.eqb_spec x c); [contradiction|]. apply (i_l _ _ _ _ _ _ _ I1). exact Hi.
      + destruct (Nat.eqb_spec x c); [discriminate|]. intros Hx. apply in_in_remove; [assumption|]. apply (i_l _ _ _ _ _ _ _ I1). exact Hx.
    - rewrite (i_l _ _ _ _ _ _ _ I1 q x). destruct (Nat.eqb_spec x c) as [->|]; [|tauto]. rewrite Pc1. split; [congruence|discriminate]. }
  assert (mem s4 a = W) as Ma. { change (mem s2 a = W). unfold s2, a. rewrite mem_newest. exact M1. }
  destruct (rehang s1 s4 c (set_parent e1 None) a) as (s' & (f2 & R2) & X1 & X2 & X3 & X4 & X5 & X6 & X7 & X8 & X9 & X10 & X11 & X12); auto.
  - unfold s4, setn, upd. cbn [CoordModel.nodes]. rewrite Nat.eqb_refl. reflexivity.
  - intros x Nx. rewrite HP. destruct (Nat.eqb_spec x c); [contradiction|reflexivity].
  - intros x Hx Nx. change (mem s2 x = mem s1 x). unfold s2. apply mem_new. exact Hx.
  - change (next s1 <= S (next s1)). lia.
  - change (0 < next s1 < S (next s1)). pose proof (d_own _ _ _ _ _ _ _ _ _ D0). lia.
  - destruct (i_b _ _ _ _ _ _ _ I1) as (H & HB). exists H. intros m Lm. apply HL in Lm. destruct (HB m Lm) as (j & Hj & Dj).
    destruct (cut_depth s1 s4 c m j HL HP Dj) as (i & Hi & Di). exists i. split; [lia|exact Di].
  - assert (Inv s') as I'.
    { constructor; auto. intros q x. rewrite X3, X2. apply HLk. }
    assert (forall m, live s m -> local s' m = if m =? c then W else local s m) as Hloc.
    { intros m Lm. rewrite X4 by (apply S1; exact Lm). rewrite Ma. destruct (m =? c); [reflexivity|]. apply (d_loc _ _ _ _ _ _ _ _ _ D1); [exact Lm|intros []]. }
    assert (forall m, live s' m <-> live s m) as HL' by (intros m; rewrite X1; apply S1).
    exists s'. split; [|split; [exact I'|split; [|split; [|split; [|split]]]]].
    + exists (max f1 f2). intros f Hf. unfold dissoc. rewrite Hdp, Em, (R1 f) by lia. change (new F s1 (mem s1 (cache s c))) with (a, s2). cbv beta iota zeta.
      change (nodes s2 p) with (nodes s1 p). rewrite Hd1. fold s3. rewrite He3. rewrite <- G1, Pc1, Nat.eqb_refl. fold s4. apply R2. lia.
    + intros Rg m Lm. apply HL' in Lm. rewrite Hloc by exact Lm. destruct (m =? c); [|apply Rg; exact Lm]. apply (pose_orth F zero one add mul sub neg rth s c); assumption.
    + apply rest; auto. intros m T Hp. induction Hp as [m L P|m q P L Pm Hq IH].
      * assert (m <> c) as Nm by congruence. replace (local s m) with (local s' m) by (rewrite Hloc by exact L; destruct (Nat.eqb_spec m c); [contradiction|reflexivity]).
        apply pose_root; [apply HL'; exact L|]. rewrite X2, HP. destruct (Nat.eqb_spec m c); [contradiction|]. destruct (S1 m) as (_ & -> & _). exact P.
      * destruct (Nat.eq_dec m c) as [->|Nm].
        -- rewrite (pose_fun F add mul s c W HW (tc P (local s c))) by (apply pose_child with q; assumption).
           replace W with (local s' c) by (rewrite Hloc, Nat.eqb_refl by exact L; reflexivity). apply pose_root; [apply HL'; exact L|]. rewrite X2, HP, Nat.eqb_refl. reflexivity.
        -- replace (local s m) with (local s' m) by (rewrite Hloc by exact L; destruct (Nat.eqb_spec m c); [contradiction|reflexivity]).
           apply pose_child with q; [apply HL'; exact L| |exact IH]. rewrite X2, HP. destruct (Nat.eqb_spec m c); [contradiction|]. destruct (S1 m) as (_ & -> & _). exact Pm.
    + intros m. rewrite X2, HP. unfold left. destruct (Nat.eqb_spec m c); [rewrite Pc, Nat.eqb_refl; reflexivity|]. apply S1.
    + intros x (Hx & Hf). destruct (c_next _ _ _ C1). assert (x < next s1) as Hx1 by lia. split.
      * split; [rewrite X8; change (0 < x < S (next s1)); lia|]. intros m Lm. apply HL' in Lm. rewrite X5, X6. destruct (S1 m) as (_ & _ & -> & -> & _).
        destruct (Hf m Lm). split; [|assumption]. destruct (m =? c); [unfold a; lia|assumption].
      * rewrite X7. change (mem s2 x = mem s x). unfold s2. rewrite mem_new by exact Hx1. apply (c_mem _ _ _ C1). intros m Lm _. apply Hf. exact Lm.
    + intros m Nm Lm. rewrite Hloc by exact Lm. destruct (Nat.eqb_spec m c); [contradiction|reflexivity].
Qed.
Lemma above_join s s' c (p m : nat) : (forall x, x <> c -> par s' x = par s x) -> above s' c m -> above s c m.
Proof.
  clear. intros HP. induction 1 as [|m q P _ IH]; [constructor|]. destruct (Nat.eq_dec m c) as [->|N]; [constructor|]. apply above_step with q; [|exact IH]. rewrite <- HP by exact N. exact P.
Qed.
Lemma assoc_core s p c a e : Inv s -> live s p -> live s c -> par s c = None -> ~ above s c p -> free s a -> nodes s c = Some e ->
  exists s6 dp, runs (fun f => newcoords f (setn F s c (set_parent e (Some p))) c a) s6 /\ nodes s6 p = Some dp /\ let s7 := setn F s6 p (set_desc dp (c :: desc dp)) in
    Inv s7 /\ (forall m, live s7 m <-> live s m) /\ (forall m, par s7 m = if m =? c then Some p else par s m) /\ (forall m, live s m -> local s7 m = if m =? c then mem s a else local s m).
Proof.
  intros I Lp Lc Pc Na Fa He. destruct (of_node F s c e He) as (_ & G1 & G2 & G3 & G4 & G5). set (s4 := setn F s c (set_parent e (Some p))).
  assert (forall x, live s4 x <-> live s x) as HL. { intros x. unfold s4. rewrite !live_setn. split; [intros [->|]; assumption|auto]. }
  assert (forall x, par s4 x = if x =? c then Some p else par s x) as HP by (intros x; unfold s4; rewrite par_setn; reflexivity).
  assert (forall x, addr s4 x = addr s x) as HA. { intros x. unfold s4. rewrite !addr_setn. cbn [set_parent loc]. destruct (Nat.eqb_spec x c) as [->|]; congruence. }
  assert (forall x, cache s4 x = cache s x) as HC. { intros x. unfold s4. rewrite !wca_setn. cbn [set_parent wc]. destruct (Nat.eqb_spec x c) as [->|]; congruence. }
  assert (forall x, dirty s4 x = dirty s x) as HD. { intros x. unfold s4. rewrite !flag_setn. cbn [set_parent changed]. destruct (Nat.eqb_spec x c) as [->|]; congruence. }
  assert (forall x, CoordProofs.kids F s4 x = CoordProofs.kids F s x) as HK. { intros x. unfold s4. rewrite !kids_setn. cbn [set_parent desc]. destruct (Nat.eqb_spec x c) as [->|]; congruence. }
  assert (forall x, x <> c -> par s4 x = par s x) as HPn by (intros x Nx; rewrite HP; destruct (Nat.eqb_spec x c); [contradiction|reflexivity]).
  destruct (rehang s s4 c (set_parent e (Some p)) a) as (s6 & R2 & X1 & X2 & X3 & X4 & X5 & X6 & X7 & X8 & X9 & X10 & X11 & X12); auto.
  - unfold s4, setn, upd. cbn [CoordModel.nodes]. rewrite Nat.eqb_refl. reflexivity.
  - exact (proj1 Fa).
  - destruct (i_b _ _ _ _ _ _ _ I) as (H & HB). exists (H + S H). intros m Lm. apply HL in Lm. destruct (HB m Lm) as (j & Hj & Dj).
    destruct (HB p Lp) as (jp & Hjp & Djp).
    destruct (join_depth s s4 c p m j H HL HP Na) as (i & Hi & Di); [exists jp; split; [lia|exact Djp]|exact Dj|]. exists i. split; [lia|exact Di].
  - intros q Hq x. rewrite HK, HP, (i_l _ _ _ _ _ _ _ I q x). destruct (Nat.eqb_spec x c) as [->|]; [|tauto]. rewrite Pc. split; [discriminate|].
    intros E. injection E as <-. exfalso. apply Na. apply (above_join s s4 c p); assumption.
  - assert (live s6 p) as L6 by (apply X1; exact Lp). destruct (live_node F s6 p L6) as [dp Hdp]. destruct (of_node F s6 p dp Hdp) as (_ & Q1 & Q2 & Q3 & Q4 & Q5).
    exists s6, dp. split; [exact R2|]. split; [exact Hdp|]. intros s7.
    assert (forall x, live s7 x <-> live s6 x) as L7. { intros x. unfold s7. rewrite !live_setn. split; [intros [->|]; assumption|auto]. }
    assert (forall x, par s7 x = par s6 x) as P7. { intros x; unfold s7; rewrite par_setn. cbn [set_desc parent]. destruct (Nat.eqb_spec x p) as [->|]; congruence. }
    assert (forall x, addr s7 x = addr s6 x) as A7. { intros x. unfold s7. rewrite !addr_setn. cbn [set_desc loc]. destruct (Nat.eqb_spec x p) as [->|]; congruence. }
    assert (forall x, cache s7 x = cache s6 x) as C7. { intros x. unfold s7. rewrite !wca_setn. cbn [set_desc wc]. destruct (Nat.eqb_spec x p) as [->|]; congruence. }
    assert (forall x, dirty s7 x = dirty s6 x) as D7. { intros x. unfold s7. rewrite !flag_setn. cbn [set_desc changed]. destruct (Nat.eqb_spec x p) as [->|]; congruence. }
    split; [|split; [intros m; rewrite L7; apply X1|split; [intros m; rewrite P7, X2; apply HP|]]].
    + constructor.
      * destruct X12 as (H & HB). exists H. apply (tree_bounded F s6); [|exact HB]. intros m. auto.
      * intros q x. rewrite P7, X2, HP. unfold s7. rewrite kids_setn. cbn [set_desc desc]. destruct (Nat.eqb_spec q p) as [->|Nq].
        -- rewrite <- Q4, X3, HK. cbn [In]. rewrite (i_l _ _ _ _ _ _ _ I p x). destruct (Nat.eqb_spec x c) as [->|]; [tauto|]. split; [intros [?|?]; [congruence|assumption]|auto].
        -- rewrite X3, HK, (i_l _ _ _ _ _ _ _ I q x). destruct (Nat.eqb_spec x c) as [->|]; [|tauto]. rewrite Pc. split; [discriminate|congruence].
      * destruct X11 as [B1 B2 B3 B4 B5 B6]. constructor; auto.
        -- intros x y Lx Ly. rewrite A7, C7. apply B1; apply L7; assumption.
        -- intros x y Lx Ly. rewrite !A7. apply B2; apply L7; assumption.
        -- intros x y Lx Ly. rewrite !C7. apply B3; apply L7; assumption.
        -- intros x Lx. rewrite A7, C7. apply B4. apply L7. exact Lx.
      * intros m q. rewrite P7, !D7. apply X9.
      * intros m Lm Fm Nm. rewrite D7 in Fm. apply L7 in Lm. pose proof (X10 m Lm Fm Nm) as Hm. unfold CoordProofs.coh1, local in *. rewrite P7, A7, C7.
        change (mem s7) with (mem s6). rewrite Hm. destruct (par s6 m); [rewrite C7; reflexivity|reflexivity].
    + intros m Lm. unfold local at 1. rewrite A7. exact (X4 m Lm).
Qed.
(** :obey leaves the old mother *)
Lemma leave_ok s c e : Inv s -> live s c -> nodes s c = Some e ->
  exists s', runs (fun f => match parent e with Some q => dissoc F add mul bad f s q c | None => Some s end) s' /\ Inv s' /\ (rigid s -> rigid s') /\ at_rest add mul s s' /\
    (forall m, par s' m = if m =? c then None else par s m) /\ (forall x, free s x -> free s' x /\ mem s' x = mem s x) /\ (forall m, m <> c -> live s m -> local s' m = local s m).
Proof.
  intros I Lc He. destruct (of_node F s c e He) as (_ & G1 & _). destruct (parent e) as [q|] eqn:Eq.
  - pose proof (parent_live F zero one add mul _ s c q I G1) as Lq. destruct (dissoc_ok s q c I Lq Lc) as (s' & R & I' & Rg & Rest & HP & HF & HLo). exists s'.
    split; [exact R|]. split; [exact I'|]. split; [exact Rg|]. split; [exact Rest|]. split; [|auto]. intros m. rewrite HP. unfold left. rewrite G1, Nat.eqb_refl. reflexivity.
  - exists s. split; [exists 0; reflexivity|]. split; [exact I|]. split; [auto|]. split; [split; tauto|]. split; [|auto]. intros m. destruct (Nat.eqb_spec m c) as [->|]; [exact G1|reflexivity].
Qed.
Lemma assoc_tail s p c a : Inv s -> live s p -> live s c -> ~ above s c p -> free s a ->
  exists s', runs (fun f => match obey F add mul bad f s c p with Some s => match newcoords f s c a with
      Some s => match nodes s p with Some d => Some (setn F s p (set_desc d (c :: desc d))) | None => None end | None => None end | None => None end) s' /\
    Inv s' /\ (forall m, live s' m <-> live s m) /\ (forall m, par s' m = if m =? c then Some p else par s m) /\
    (forall m, live s m -> local s' m = if m =? c then mem s a else local s m) /\
    (forall m T, ~ above s c m -> pose s m T -> pose s' m T).
Proof.
  intros I Lp Lc Na Fa. destruct (live_node F s c Lc) as [e He]. destruct (leave_ok s c e I Lc He) as (s1 & (f1 & R1) & I1 & Rg1 & (HL1 & HR1) & HP1 & HF1 & HLo1).
  assert (live s1 c) as Lc1 by (apply HL1; exact Lc). assert (live s1 p) as Lp1 by (apply HL1; exact Lp). destruct (live_node F s1 c Lc1) as [e1 He1].
  assert (forall x, x <> c -> par s1 x = par s x) as HPn by (intros x Nx; rewrite HP1; destruct (Nat.eqb_spec x c); [contradiction|reflexivity]).
  assert (forall m, above s1 c m -> above s c m) as Ab by (intros m; apply (above_join s s1 c p); exact HPn).
  destruct (HF1 a Fa) as [Fa1 Ma1].
  destruct (assoc_core s1 p c a e1 I1 Lp1 Lc1) as (s6 & dp & (f2 & R2) & Hdp & I7 & L7 & P7 & Lo7); auto.
  { rewrite HP1, Nat.eqb_refl. reflexivity. }
  exists (setn F s6 p (set_desc dp (c :: desc dp))). split; [|split; [exact I7|split; [intros m; rewrite L7; apply HL1|split; [|split]]]].
  - exists (max f1 f2). intros f Hf. unfold obey. rewrite He, (R1 f) by lia. rewrite He1, (R2 f) by lia. rewrite Hdp. reflexivity.
  - intros m. rewrite P7, HP1. destruct (m =? c); reflexivity.
  - intros m Lm. rewrite Lo7 by (apply HL1; exact Lm). rewrite Ma1. destruct (Nat.eqb_spec m c); [reflexivity|]. apply HLo1; assumption.
  - intros m T Nm HT. apply HR1 in HT. revert HT. apply pose_above. intros x Hx Lx. assert (x <> c) as Nx.
    { intros ->. apply Nm, Ab, Hx. }
    split; [apply L7; exact Lx|]. rewrite P7, Lo7 by exact Lx. destruct (Nat.eqb_spec x c); [contradiction|auto].
Qed.
Theorem assoc_ok s p c : Inv s -> rigid s -> live s p -> live s c -> ~ above s c p ->
  exists s', runs (fun f => CoordModel.assoc F add mul neg bad f s p c None) s' /\ Inv s' /\ rigid s' /\ at_rest add mul s s' /\ (forall m, par s' m = if m =? c then Some p else par s m).
Proof.
  intros I R Lp Lc Na. destruct (live_node F s p Lp) as [dp Hdp]. destruct (of_node F s p dp Hdp) as (_ & _ & _ & _ & Kp & _).
  destruct (memb c (desc dp)) eqn:Em.
  { exists s. split; [exists 0; intros f _; unfold CoordModel.assoc; rewrite Hdp, Em; reflexivity|]. split; [exact I|]. split; [exact R|]. split; [split; tauto|].
    intros m. destruct (Nat.eqb_spec m c) as [->|]; [|reflexivity]. apply (i_l _ _ _ _ _ _ _ I). rewrite Kp. apply memb_In. exact Em. }
  destruct (inv_depth F zero one add mul _ s c I Lc) as (k & Hk). destruct (pose_ex F add mul s c k Hk) as (W & HW).
  destruct (inv_depth F zero one add mul _ s p I Lp) as (k' & Hk'). destruct (pose_ex F add mul s p k' Hk') as (V & HV).
  pose proof (pose_orth F zero one add mul sub neg rth s p V R HV) as OV. pose proof (pose_orth F zero one add mul sub neg rth s c W R HW) as OW.
  pose proof (during_refl F zero one add mul none s c I) as D0. assert (forall m : nat, none m -> m = c) as HF by (intros ? []).
  destruct (during_world F zero one add mul bad s c s none p V D0 HV (or_intror (fun _ _ H => H)) I Lc) as (s1 & (f1 & R1) & C1 & D1 & M1 & K1).
  destruct (during_world F zero one add mul bad s c s1 none c W D1 HW (or_intror (fun _ _ H => H)) I Lc) as (s2 & (f2 & R2) & C2 & D2 & M2 & K2).
  destruct (kept_calm F s1 s2 c (cache s p) C2 K1) as [K1' M1']. rewrite M1 in M1'. set (a := next s2). set (s3 := snd (new F s2 (tc (inv (mem s2 (cache s p))) (mem s2 (cache s c))))).
  assert (during none s c s3) as D3 by (apply during_new; [exact HF|exact D2]). pose proof (d_inv _ _ _ _ _ _ _ _ _ D3) as I3. pose proof (d_shape _ _ _ _ _ _ _ _ _ D3) as S3.
  assert (mem s3 a = tc (inv V) W) as Ma by (unfold s3, a; rewrite mem_newest; congruence).
  assert (free s3 a) as Fa.
  { pose proof (d_own _ _ _ _ _ _ _ _ _ D3) as [O1 O2]. pose proof (d_next _ _ _ _ _ _ _ _ _ D2) as N2. split; [change (0 < next s2 < S (next s2)); lia|].
    intros m Lm. apply S3 in Lm. destruct (S3 m) as (_ & _ & -> & -> & _). destruct (O2 m Lm). unfold a. lia. }
  assert (forall m T, pose s m T -> pose s3 m T) as P3.
  { intros m T. apply (pose_same F add mul s s3); [intros x; apply S3|intros x; apply S3|]. intros x Lx. apply (d_loc _ _ _ _ _ _ _ _ _ D3); [exact Lx|intros []]. }
  assert (~ above s3 c p) as Na3.
  { intros H. apply Na. apply (above_join s s3 c p); [|exact H]. intros x _. apply S3. }
  destruct (assoc_tail s3 p c a I3) as (s' & (f3 & R3) & I' & HL' & HP' & HLo' & HPo'); auto.
  { apply S3. exact Lp. } { apply S3. exact Lc. }
  assert (forall m, live s' m <-> live s m) as HL2 by (intros m; rewrite HL'; apply S3).
  assert (forall m, live s m -> local s' m = if m =? c then tc (inv V) W else local s m) as HLo2.
  { intros m Lm. rewrite HLo' by (apply S3; exact Lm). rewrite Ma. destruct (m =? c); [reflexivity|]. apply (d_loc _ _ _ _ _ _ _ _ _ D3); [exact Lm|intros []]. }
  assert (forall m, par s' m = if m =? c then Some p else par s m) as HP2.
  { intros m. rewrite HP'. destruct (m =? c); [reflexivity|]. apply S3. }
  assert (pose s' p V) as HV' by (apply HPo'; [exact Na3|apply P3; exact HV]).
  assert (pose s' c W) as HW'.
  { replace W with (tc V (local s' c)). { apply pose_child with p; [apply HL2; exact Lc| |exact HV']. rewrite HP2, Nat.eqb_refl. reflexivity. }
    rewrite HLo2, Nat.eqb_refl by exact Lc. rewrite tassoc, right_inv, unit_l by exact OV. reflexivity. }
  exists s'. split; [|split; [exact I'|split; [|split; [|exact HP2]]]].
  - exists (max (max f1 f2) f3). intros f Hf. unfold CoordModel.assoc. rewrite Hdp, Em, (R1 f), (R2 f) by lia. unfold new. cbv beta iota zeta. apply R3. lia.
  - intros m Lm. apply HL2 in Lm. rewrite HLo2 by exact Lm. destruct (m =? c); [|apply R; exact Lm]. osolve.
  - apply rest; auto. intros m T Hp. induction Hp as [m L P|m q P L Pm Hq IH].
    + destruct (Nat.eq_dec m c) as [->|Nm].
      * rewrite (pose_fun F add mul s c W HW (local s c)) by (apply pose_root; assumption). exact HW'.
      * replace (local s m) with (local s' m) by (rewrite HLo2 by exact L; destruct (Nat.eqb_spec m c); [contradiction|reflexivity]).
        apply pose_root; [apply HL2; exact L|]. rewrite HP2. destruct (Nat.eqb_spec m c); [contradiction|exact P].
    + destruct (Nat.eq_dec m c) as [->|Nm].
      * rewrite (pose_fun F add mul s c W HW (tc P (local s c))) by (apply pose_child with q; assumption). exact HW'.
      * replace (local s m) with (local s' m) by (rewrite HLo2 by exact L; destruct (Nat.eqb_spec m c); [contradiction|reflexivity]).
        apply pose_child with q; [apply HL2; exact L| |exact IH]. rewrite HP2. destruct (Nat.eqb_spec m c); [contradiction|exact Pm].
Qed.
Theorem assoc_at_ok s p c a V : Inv s -> rigid s -> live s p -> live s c -> ~ above s c p -> par s c <> Some p -> free s a -> orth (rot F (mem s a)) -> pose s p V ->
  exists s', runs (fun f => CoordModel.assoc F add mul neg bad f s p c (Some a)) s' /\ Inv s' /\ rigid s' /\ (forall m, live s' m <-> live s m) /\
    (forall m, par s' m = if m =? c then Some p else par s m) /\ pose s' c (tc V (mem s a)) /\ (forall m T, ~ above s c m -> pose s m T -> pose s' m T) /\
    (forall m, m <> c -> live s m -> local s' m = local s m).
Proof.
  intros I R Lp Lc Na Np Fa Oa HV. destruct (live_node F s p Lp) as [dp Hdp]. destruct (of_node F s p dp Hdp) as (_ & _ & _ & _ & Kp & _).
  assert (memb c (desc dp) = false) as Em.
  { destruct (memb c (desc dp)) eqn:Em; [|reflexivity]. exfalso. apply Np. apply (i_l _ _ _ _ _ _ _ I). rewrite Kp. apply memb_In. exact Em. }
  destruct (assoc_tail s p c a I Lp Lc Na Fa) as (s' & (f3 & R3) & I' & HL' & HP' & HLo' & HPo'). exists s'. split; [|split; [exact I'|split; [|split; [exact HL'|split; [exact HP'|split; [|split]]]]]].
  - exists f3. intros f Hf. unfold CoordModel.assoc. rewrite Hdp, Em. apply R3. exact Hf.
  - intros m Lm. apply HL' in Lm. rewrite HLo' by exact Lm. destruct (m =? c); [exact Oa|apply R; exact Lm].
  - replace (mem s a) with (local s' c) by (rewrite HLo', Nat.eqb_refl by exact Lc; reflexivity). apply pose_child with p; [apply HL'; exact Lc| |].
    + rewrite HP', Nat.eqb_refl. reflexivity.
    + apply HPo'; assumption.
  - exact HPo'.
  - intros m Nm Lm. rewrite HLo' by exact Lm. destruct (Nat.eqb_spec m c); [contradiction|reflexivity].
Qed.
Lemma rest_trans (s1 s2 s3 : st) : at_rest add mul s1 s2 -> at_rest add mul s2 s3 -> at_rest add mul s1 s3.
Proof. intros [A1 A2] [B1 B2]. split; [intros m; rewrite B1; apply A1|]. intros m T. rewrite A2. apply B2. Qed.
Lemma clear_list p : forall l s, Inv s -> live s p -> (forall c, In c l -> live s c) ->
  exists s', runs (fun f => fold_left (fun (o : option st) c => match o with Some s => dissoc F add mul bad f s p c | None => None end) l (Some s)) s' /\
    Inv s' /\ (rigid s -> rigid s') /\ at_rest add mul s s' /\ (forall m, par s m <> Some p -> par s' m = par s m) /\ (forall m, par s m = Some p -> In m l -> par s' m = None) /\
    (forall m, par s m = Some p -> ~ In m l -> par s' m = Some p).
Proof.
  induction l as [|c l IH]; intros s I Lp Hl.
  - exists s. split; [exists 0; reflexivity|]. split; [exact I|]. split; [auto|]. split; [split; tauto|]. cbn [In]. split; [auto|]. split; [tauto|auto].
  - destruct (dissoc_ok s p c I Lp (Hl c (or_introl eq_refl))) as (s1 & (f1 & R1) & I1 & G1 & T1 & P1 & _).
    assert (forall m, par s1 m = Some p -> par s m = Some p) as Back.
    { intros m. rewrite P1. unfold left. destruct (Nat.eqb_spec m c) as [->|]; [|auto]. destruct (par s c) as [q|]; [|discriminate]. destruct (Nat.eqb_spec q p); [discriminate|auto]. }
    destruct (IH s1 I1) as (s2 & (f2 & R2) & I2 & G2 & T2 & Q1 & Q2 & Q3).
    { apply T1. exact Lp. } { intros x Hx. apply T1. apply Hl. right. exact Hx. }
    exists s2. split; [|split; [exact I2|split; [auto|split; [apply (rest_trans s s1 s2); assumption|split; [|split]]]]].
    + exists (max f1 f2). intros f Hf. cbn [fold_left]. rewrite R1 by lia. apply R2. lia.
    + intros m Nm. rewrite Q1 by (intros E; apply Nm, Back, E). rewrite P1. unfold left. destruct (Nat.eqb_spec m c) as [->|]; [|reflexivity].
      destruct (par s c) as [q|]; [|reflexivity]. destruct (Nat.eqb_spec q p) as [->|]; [congruence|reflexivity].
    + intros m Pm Hm. destruct (Nat.eq_dec m c) as [->|Nm].
      * assert (par s1 c = None) as E by (rewrite P1; unfold left; rewrite Nat.eqb_refl, Pm, Nat.eqb_refl; reflexivity). rewrite Q1 by (rewrite E; discriminate). exact E.
      * destruct Hm as [->|Hm]; [congruence|]. apply Q2; [|exact Hm]. rewrite P1. unfold left. destruct (Nat.eqb_spec m c); [contradiction|exact Pm].
    + intros m Pm Hm. cbn [In] in Hm. apply Q3; [|tauto]. rewrite P1. unfold left. destruct (Nat.eqb_spec m c) as [->|]; [tauto|exact Pm].
Qed.
Theorem clear_ok s p : Inv s -> live s p ->
  exists s', runs (fun f => clear_assoc F add mul bad f s p) s' /\ Inv s' /\ (rigid s -> rigid s') /\ at_rest add mul s s' /\
    forall m, par s' m = match par s m with Some q => if q =? p then None else Some q | None => None end.
Proof.
  intros I Lp. destruct (live_node F s p Lp) as [d Hd]. destruct (of_node F s p d Hd) as (_ & _ & _ & _ & Kp & _).
  assert (forall c, In c (desc d) -> par s c = Some p) as Hk by (intros c Hc; apply (i_l _ _ _ _ _ _ _ I); rewrite Kp; exact Hc).
  destruct (clear_list p (desc d) s I Lp) as (s' & (f1 & R1) & I' & G' & T' & Q1 & Q2 & Q3).
  { intros c Hc. apply (par_live F s c p). apply Hk. exact Hc. }
  exists s'. split; [exists f1; intros f Hf; unfold clear_assoc; rewrite Hd; apply R1; exact Hf|]. split; [exact I'|]. split; [exact G'|]. split; [exact T'|].
  intros m. destruct (par s m) as [q|] eqn:Em; [|rewrite Q1 by (rewrite Em; discriminate); exact Em]. destruct (Nat.eqb_spec q p) as [->|Nq]; [|rewrite Q1 by (rewrite Em; congruence); exact Em].
  apply Q2; [exact Em|]. rewrite <- Kp. apply (i_l _ _ _ _ _ _ _ I). exact Em.
Qed.
Theorem create_ok s n (v : coords F) : Inv s -> ~ live s n ->
  let s' := create F s n v in Inv s' /\ (rigid s -> orth (rot F v) -> rigid s') /\ (forall m, live s' m <-> m = n \/ live s m) /\ pose s' n v /\
    (forall m, par s' m = par s m) /\ (forall m T, pose s m T -> pose s' m T).
Proof.
  intros I Ln s'. assert (nodes s n = None) as En by (unfold live in Ln; destruct (nodes s n); [exfalso; apply Ln; discriminate|reflexivity]).
  pose proof (i_s _ _ _ _ _ _ _ I) as [B1 B2 B3 B4 B5 B6].
  assert (forall m, nodes s' m = if m =? n then Some (Nd (next s) None [] (S (next s)) true) else nodes s m) as Nd' by reflexivity.
  assert (forall m, live s' m <-> m = n \/ live s m) as L'. { intros m. unfold live. rewrite Nd'. destruct (Nat.eqb_spec m n) as [->|]; [split; [auto|discriminate]|tauto]. }
  assert (forall m, par s' m = par s m) as P'. { intros m. unfold par. rewrite Nd'. destruct (Nat.eqb_spec m n) as [->|]; [rewrite En|]; reflexivity. }
  assert (forall m, addr s' m = if m =? n then next s else addr s m) as A'. { intros m. unfold addr. rewrite Nd'. destruct (m =? n); reflexivity. }
  assert (forall m, cache s' m = if m =? n then S (next s) else cache s m) as C'. { intros m. unfold cache. rewrite Nd'. destruct (m =? n); reflexivity. }
  assert (forall m, dirty s' m = if m =? n then true else dirty s m) as D'. { intros m. unfold dirty. rewrite Nd'. destruct (m =? n); reflexivity. }
  assert (forall m, CoordProofs.kids F s' m = if m =? n then [] else CoordProofs.kids F s m) as K'. { intros m. unfold CoordProofs.kids. rewrite Nd'. destruct (m =? n); reflexivity. }
  assert (forall x, x < next s -> mem s' x = mem s x) as M'.
  { intros x Hx. cbn. unfold upd. destruct (Nat.eqb_spec x (S (next s))); [lia|]. destruct (Nat.eqb_spec x (next s)); [lia|reflexivity]. }
  assert (forall m, live s m -> local s' m = local s m) as Lo.
  { intros m Lm. unfold local. rewrite A'. destruct (Nat.eqb_spec m n) as [->|]; [contradiction|]. apply M', B4, Lm. }
  assert (local s' n = v) as Lv.
  { unfold local. rewrite A', Nat.eqb_refl. cbn. unfold upd. destruct (Nat.eqb_spec (next s) (S (next s))); [lia|]. rewrite Nat.eqb_refl. reflexivity. }
  assert (par s n = None) as Pn by (unfold par; rewrite En; reflexivity).
  assert (forall m, par s m <> Some n) as Nk. { intros m E. apply Ln. exact (parent_live F zero one add mul _ s m n I E). }
  assert (forall m T, pose s m T -> pose s' m T) as HP'.
  { intros m T. apply pose_above. intros x _ Lx. split; [apply L'; auto|]. auto. }
  assert (forall m k, depth s m k -> depth s' m k) as HD'.
  { intros m k. induction 1 as [m Lm Pm|m q k Lm Pm _ IH]; [constructor; [apply L'; auto|rewrite P'; exact Pm]|]. apply depth_S with q; [apply L'; auto|rewrite P'; exact Pm|exact IH]. }
  split; [|split; [|split; [exact L'|split; [|auto]]]].
  - constructor.
    + destruct (i_b _ _ _ _ _ _ _ I) as (H & HB). exists (S H). intros m Lm. apply L' in Lm. destruct Lm as [->|Lm].
      * exists 0. split; [lia|]. constructor; [apply L'; auto|]. rewrite P'. exact Pn.
      * destruct (HB m Lm) as (k & Hk & Dk). exists k. split; [lia|]. apply HD'. exact Dk.
    + intros q x. rewrite K', P'. destruct (Nat.eqb_spec q n) as [->|]; [|apply (i_l _ _ _ _ _ _ _ I)]. split; [intros []|]. intros E. exfalso. exact (Nk x E).
    + constructor.
      * intros x y Lx Ly. apply L' in Lx, Ly. rewrite A', C'. destruct (Nat.eqb_spec x n) as [->|Nx], (Nat.eqb_spec y n) as [->|Ny]; destruct Lx as [?|Lx], Ly as [?|Ly]; try contradiction; try lia; try (destruct (B4 y Ly); lia); try (destruct (B4 x Lx); lia). apply B1; assumption.
      * intros x y Lx Ly Nxy. apply L' in Lx, Ly. rewrite !A'. destruct (Nat.eqb_spec x n) as [->|Nx], (Nat.eqb_spec y n) as [->|Ny]; destruct Lx as [?|Lx], Ly as [?|Ly]; try contradiction; try congruence; try (destruct (B4 y Ly); lia); try (destruct (B4 x Lx); lia). apply B2; assumption.
      * intros x y Lx Ly Nxy. apply L' in Lx, Ly. rewrite !C'. destruct (Nat.eqb_spec x n) as [->|Nx], (Nat.eqb_spec y n) as [->|Ny]; destruct Lx as [?|Lx], Ly as [?|Ly]; try contradiction; try congruence; try (destruct (B4 y Ly); lia); try (destruct (B4 x Lx); lia). apply B3; assumption.
      * intros x Lx. apply L' in Lx. rewrite A', C'. change (next s') with (S (S (next s))). destruct (Nat.eqb_spec x n) as [->|Nx]; [lia|]. destruct Lx as [?|Lx]; [contradiction|]. destruct (B4 x Lx). lia.
      * change (next s') with (S (S (next s))). lia.
      * rewrite M' by exact B5. exact B6.
    + intros m q. rewrite P', !D'. intros Pm. destruct (Nat.eqb_spec q n) as [->|]; [exfalso; exact (Nk m Pm)|]. destruct (m =? n); [reflexivity|]. apply (i_m _ _ _ _ _ _ _ I). exact Pm.
    + intros m Lm Fm _. rewrite D' in Fm. destruct (Nat.eqb_spec m n) as [->|Nm]; [discriminate|]. apply L' in Lm. destruct Lm as [?|Lm]; [contradiction|].
      pose proof (i_c _ _ _ _ _ _ _ I m Lm Fm (fun H => H)) as Hm. unfold CoordProofs.coh1 in *. rewrite P', C', Lo by exact Lm. destruct (Nat.eqb_spec m n); [contradiction|].
      rewrite M' by (apply B4; exact Lm). rewrite Hm. destruct (par s m) as [q|] eqn:Eq; [|reflexivity]. pose proof (parent_live F zero one add mul _ s m q I Eq) as Lq.
      rewrite C'. destruct (Nat.eqb_spec q n) as [->|]; [contradiction|]. rewrite M' by (apply B4; exact Lq). reflexivity.
  - intros Rg Ov m Lm. apply L' in Lm. destruct Lm as [->|Lm]; [rewrite Lv; exact Ov|rewrite Lo by exact Lm; apply Rg; exact Lm].
  - rewrite <- Lv. apply pose_root; [apply L'; auto|]. rewrite P'. exact Pn.
Qed.
Theorem new_ok s (v : coords F) : Inv s -> let s' := snd (new F s v) in Inv s' /\ (rigid s -> rigid s') /\ at_rest add mul s s' /\ free s' (next s) /\ mem s' (next s) = v.
Proof.
  intros I s'. destruct (i_s _ _ _ _ _ _ _ I) as [B1 B2 B3 B4 B5 B6]. pose proof (during_refl F zero one add mul none s 0 I) as D0.
  assert (during none s 0 s') as D by (apply during_new; [intros m []|exact D0]). pose proof (d_inv _ _ _ _ _ _ _ _ _ D) as I'.
  assert (forall m, live s m -> local s' m = local s m) as Lo by (intros m Lm; apply (d_loc _ _ _ _ _ _ _ _ _ D); [exact Lm|intros []]).
  split; [exact I'|]. split; [intros Rg m Lm; rewrite Lo by exact Lm; apply Rg; exact Lm|]. split; [|split; [|apply mem_newest]].
  - apply rest; auto; [intros m; tauto|]. intros m T. apply pose_above. intros x _ Lx. split; [exact Lx|]. split; [reflexivity|apply Lo; exact Lx].
  - split; [change (0 < next s < S (next s)); lia|]. intros m Lm. change (addr s m <> next s /\ cache s m <> next s). destruct (B4 m Lm). lia.
Qed.
Theorem world_place s n W : Inv s -> pose s n W -> exists s', runs (fun f => worldcoords f s n) (s', cache s n) /\ still F zero one add mul s s' /\ at_rest add mul s s' /\ mem s' (cache s n) = W.
Proof.
  intros I HW. pose proof (pose_live F add mul s n W HW) as L. pose proof (during_refl F zero one add mul none s n I) as D0.
  destruct (during_world F zero one add mul bad s n s none n W D0 HW (or_intror (fun _ _ H => H)) I L) as (s1 & R1 & C1 & D1 & M1 & K1). pose proof (during_still F zero one add mul s n s1 D1) as S1.
  exists s1. split; [exact R1|]. split; [exact S1|]. split; [|exact M1]. destruct S1 as (I1 & A1 & A2 & A3). apply rest; auto. intros m T. apply (pose_same F add mul s s1); auto.
Qed.
(** what is fixed to a frame moves with it *)
Theorem follow s s' n T0 W W' : Inv s -> rigid s -> moved s s' n T0 -> pose s n W -> pose s' n W' -> forall m T, pose s m T ->
  (above s n m -> pose s' m (tc W' (tc (inv W) T))) /\ (~ above s n m -> pose s' m T).
Proof.
  intros I R (M1 & M2 & M3 & M4) HW HW' m T HT. pose proof (pose_orth F zero one add mul sub neg rth s n W R HW) as OW. split.
  - intros Ha. revert T HT. induction Ha as [|m p P Ha IH]; intros T HT.
    + rewrite (pose_fun F add mul s n W HW T HT), left_inv, unit_r by exact OW. exact HW'.
    + destruct (Nat.eq_dec m n) as [->|Nm].
      * rewrite (pose_fun F add mul s n W HW T HT), left_inv, unit_r by exact OW. exact HW'.
      * destruct HT as [m L Pm|m q Q L Pm HQ]; [congruence|]. assert (q = p) as -> by congruence. specialize (IH Q HQ).
        rewrite <- (M4 m Nm L). replace (tc W' (tc (inv W) (tc Q (local s' m)))) with (tc (tc W' (tc (inv W) Q)) (local s' m)) by (rewrite !tassoc; reflexivity).
        apply pose_child with p; [apply M1; exact L|rewrite M2; exact Pm|exact IH].
  - intros Na. revert HT. apply pose_above. intros x Hx Lx. assert (x <> n) as Nx by (intros ->; exact (Na Hx)). split; [apply M1; exact Lx|]. split; [apply M2|apply M4; assumption].
Qed.
End Assoc.
