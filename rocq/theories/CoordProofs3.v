(** Proofs about cascaded coordinates: moving a frame. *)
From Coq Require Import List Arith Bool Lia Ring.
From Verif Require Import CoordModel CoordSpec CoordProofs CoordProofs2.
Import ListNotations.

Section Move.
Variables (F : Type) (zero one : F) (add mul sub : F -> F -> F) (neg : F -> F).
Hypothesis rth : ring_theory zero one add mul sub neg (@eq F).
Variable bad : coords F -> coords F.
Notation st := (st F). Notation tc := (tc F add mul). Notation inv := (inv F add mul neg). Notation U := (unit_coords F zero one).
Notation pose := (pose add mul). Notation worldcoords := (worldcoords F add mul bad). Notation newcoords := (newcoords F).
Notation nodes := (nodes F). Notation mem := (mem F). Notation next := (next F). Notation args := (args F). Notation put := (put F).
Notation Inv := (Inv F zero one add mul). Notation InvE := (InvE F zero one add mul). Notation calm := (calm F). Notation shape := (shape F).
Notation depth := (depth F). Notation orth := (orth zero one add mul). Notation rigid := (rigid zero one add mul). Notation mother := (mother zero one add mul).
Notation parentcoords := (parentcoords F add mul bad). Notation tcp := (tcp F add mul bad).
Implicit Types (s si : st) (E : nat -> Prop) (v : coords F).
(* the tactics must not take the numbers for facts *)
Ltac purge := clear sub neg rth bad.

Lemma mem_put s a v x : mem (put s a v) x = if x =? a then v else mem s x. Proof using Type. reflexivity. Qed.
Lemma tcp_put s a b c : a <> c \/ b <> c -> tcp s a b c = put s c (tc (mem s a) (mem s b)).
Proof using Type. intros H. unfold CoordModel.tcp. destruct (Nat.eqb_spec a c), (Nat.eqb_spec b c); cbn [andb]; try reflexivity. exfalso. tauto. Qed.

Lemma pose_live s n T : pose s n T -> live s n. Proof using Type. intros []; assumption. Qed.
Lemma inv_depth E s n : InvE E s -> live s n -> exists k, depth s n k.
Proof using Type. intros I L. destruct (i_b _ _ _ _ _ _ _ I) as (H & HB). destruct (HB n L) as (k & _ & Hk). eauto. Qed.
Lemma not_above_par E s n p : InvE E s -> par s n = Some p -> ~ above s n p.
Proof using Type.
  intros I P Ha. pose proof (par_live F s n p P) as L. destruct (inv_depth E s n I L) as (k & Hk). destruct (depth_par F s n p k Hk P) as (j & Ej & Hj).
  destruct (above_depth F s n p Ha j Hj) as (i & Hi & Hle & _). pose proof (depth_fun F s n k Hk i Hi). lia.
Qed.
Lemma pose_above s s' n T : (forall m, above s m n -> live s m -> live s' m /\ par s' m = par s m /\ local s' m = local s m) -> pose s n T -> pose s' n T.
Proof using Type.
  intros H. induction 1 as [n L P|n p P L Pn _ IH].
  - destruct (H n (above_refl s n) L) as (A1 & A2 & <-). apply pose_root; [exact A1|congruence].
  - destruct (H n (above_refl s n) L) as (A1 & A2 & <-). apply pose_child with p; [exact A1|congruence|].
    apply IH. intros m Hm. apply H. apply above_step with p; assumption.
Qed.
Lemma mother_ex s n : (exists k, depth s n k) -> exists P, mother s n P.
Proof using Type.
  intros (k & Hk). unfold CoordSpec.mother. destruct (par s n) as [p|] eqn:Ep; [|eauto].
  destruct (depth_par F s n p k Hk Ep) as (j & _ & Hj). apply (pose_ex F add mul s p j Hj).
Qed.
Lemma mother_pose s n P : live s n -> mother s n P -> pose s n (tc P (local s n)).
Proof using rth.
  intros L. unfold CoordSpec.mother. destruct (par s n) as [p|] eqn:Ep.
  - intros HP. apply pose_child with p; assumption.
  - intros ->. rewrite (tc_1l _ _ _ _ _ _ _ rth). apply pose_root; assumption.
Qed.
Lemma pose_orth s n T : rigid s -> pose s n T -> orth (rot F T).
Proof using rth.
  intros R. induction 1 as [n L P|n p P L Pn _ IH]; [apply R; exact L|]. apply (orth_tc _ _ _ _ _ _ _ rth); [exact IH|apply R; exact L].
Qed.
Lemma mother_orth s n P : rigid s -> mother s n P -> orth (rot F P).
Proof using rth.
  intros R. unfold CoordSpec.mother. destruct (par s n) as [p|]; [apply pose_orth; exact R|]. intros ->. apply (orth_1 _ _ _ _ _ _ _ rth).
Qed.
(** ** States during an operation on [n]: [E] is empty, or [n] when its local coordinates have been overwritten *)
Record during (E : nat -> Prop) s (n : nat) si : Prop := {
  d_shape : shape s si;
  d_next : next s <= next si;
  d_inv : InvE E si;
  d_loc : forall m, live s m -> ~ E m -> local si m = local s m;
  d_kept : forall a, kept s n a -> kept si n a /\ mem si a = mem s a;
  d_clean : forall m, dirty s m = false -> dirty si m = false;
  d_own : 0 < next s /\ forall m, live s m -> addr s m < next s /\ cache s m < next s }.
Lemma during_refl E s n : InvE E s -> during E s n s.
Proof using Type.
  intros I. constructor; auto; [apply shape_refl|]. destruct (i_s _ _ _ _ _ _ _ I) as [B1 B2 B3 B4 B5 B6]. split; [exact B5|].
  intros m Lm. destruct (B4 m Lm) as [[_ ?] [_ ?]]. auto.
Qed.
Lemma kept_calm s si n a : calm s si -> kept s n a -> kept si n a /\ mem si a = mem s a.
Proof using Type.
  intros [C1 C2 C3 C4 C5] (K1 & K2 & K3). split; [|apply C2; exact K3]. split; [rewrite C3; exact K1|]. split.
  - destruct (C1 n) as (_ & _ & -> & _). exact K2.
  - intros m Lm Fm. destruct (C1 m) as (L & _ & _ & -> & _). apply K3; [tauto|]. destruct (dirty s m) eqn:E; [reflexivity|]. rewrite (C5 m E) in Fm. discriminate.
Qed.
Lemma during_calm E s n s1 s2 : during E s n s1 -> calm s1 s2 -> InvE E s2 -> during E s n s2.
Proof using Type.
  intros [D1 D2 D3 D4 D5 D6 D7] C I. pose proof C as [C1 C2 C3 C4 C5]. constructor.
  - apply (shape_trans F s s1 s2); assumption.
  - lia.
  - exact I.
  - intros m Lm Nm. rewrite <- D4 by assumption. apply (calm_local F zero one); [exact (i_s _ _ _ _ _ _ _ D3)|exact C|apply D1; exact Lm].
  - intros a Ka. destruct (D5 a Ka) as [K1 <-]. apply kept_calm; assumption.
  - auto.
  - exact D7.
Qed.
(** writing where no other frame looks *)
Lemma inv_mem (E : nat -> Prop) s1 s2 n : (forall m, E m -> m = n) -> InvE E s1 -> nodes s2 = nodes s1 -> next s1 <= next s2 -> mem s2 0 = mem s1 0 ->
  (forall m, live s1 m -> mem s2 (cache s1 m) = mem s1 (cache s1 m)) -> (forall m, live s1 m -> ~ E m -> mem s2 (addr s1 m) = mem s1 (addr s1 m)) -> InvE E s2.
Proof using Type.
  intros HE I En Ex E0 Mw Ml. destruct s2 as [nd me nx ar]. cbn [CoordModel.nodes CoordModel.mem CoordModel.next] in *. subst nd.
  destruct I as [I1 I2 [B1 B2 B3 B4 B5 B6] I4 I5]. constructor.
  - destruct I1 as (H & HB). exists H. apply (tree_bounded F s1); [|exact HB]. intros m. split; reflexivity.
  - exact I2.
  - constructor; cbn [CoordModel.next CoordModel.mem]; [exact B1|exact B2|exact B3| |lia|congruence]. intros m Lm. destruct (B4 m Lm). split; [|]; cbn [CoordModel.next]; unfold addr, cache in *; cbn [CoordModel.nodes]; lia.
  - exact I4.
  - intros m Lm Fm Nm. pose proof (I5 m Lm Fm Nm) as H. unfold CoordProofs.coh1, local in *.
    change (me (cache s1 m) = match par s1 m with Some p => tc (me (cache s1 p)) (me (addr s1 m)) | None => me (addr s1 m) end).
    rewrite Mw, H, Ml by assumption. destruct (par s1 m) as [p|] eqn:Ep; [|reflexivity].
    rewrite Mw; [reflexivity|]. destruct I1 as (H' & HB). destruct (HB m Lm) as (j & _ & Hj). destruct (depth_par F s1 m p j Hj Ep) as (i & _ & Hi). exact (depth_live F s1 p i Hi).
Qed.
Lemma during_put s n s1 E v : (forall m, E m -> m = n) -> live s n -> during E s n s1 -> during (fun m => m = n) s n (put s1 (addr s n) v).
Proof using Type.
  purge. intros HE L [D1 D2 D3 D4 D5 D6 D7]. assert (addr s1 n = addr s n) as Ea by apply D1. assert (live s1 n) as L1 by (apply D1; exact L).
  pose proof (i_s _ _ _ _ _ _ _ D3) as [B1 B2 B3 B4 B5 B6]. constructor.
  - exact D1.
  - exact D2.
  - apply (inv_mem _ s1 _ n).
    + auto.
    + apply (InvE_weak _ _ _ _ _ E); assumption.
    + reflexivity.
    + reflexivity.
    + rewrite mem_put. destruct (Nat.eqb_spec 0 (addr s n)) as [H|]; [|reflexivity]. destruct (B4 n L1) as [[? ?] _]. lia.
    + intros m Lm. rewrite mem_put. destruct (Nat.eqb_spec (cache s1 m) (addr s n)) as [H|]; [|reflexivity]. exfalso. apply (B1 n m L1 Lm). congruence.
    + intros m Lm Nm. rewrite mem_put. destruct (Nat.eqb_spec (addr s1 m) (addr s n)) as [H|]; [|reflexivity]. exfalso. apply (B2 m n Lm L1 Nm). congruence.
  - intros m Lm Nm. rewrite <- D4 by auto. unfold local. replace (addr (put s1 (addr s n) v) m) with (addr s1 m) by reflexivity.
    rewrite mem_put. destruct (Nat.eqb_spec (addr s1 m) (addr s n)) as [H|]; [|reflexivity]. exfalso. apply (B2 m n); [apply D1; exact Lm|exact L1|exact Nm|congruence].
  - intros a Ka. destruct (D5 a Ka) as [K1 <-]. split; [exact K1|]. rewrite mem_put. destruct (Nat.eqb_spec a (addr s n)) as [->|]; [|reflexivity]. exfalso. apply Ka. reflexivity.
  - exact D6.
  - exact D7.
Qed.
Lemma during_mem s n s1 s2 E : (forall m, E m -> m = n) -> during E s n s1 -> nodes s2 = nodes s1 -> next s1 <= next s2 ->
  (forall x, x < next s -> mem s2 x = mem s1 x) -> during E s n s2.
Proof using Type.
  purge. intros HE [D1 D2 D3 D4 D5 D6 [D7 D8]] En Ex Em.
  assert (forall m, live s1 m -> addr s1 m < next s /\ cache s1 m < next s) as O1.
  { intros m Lm. destruct (D1 m) as (L & _ & -> & -> & _). apply D8. tauto. }
  assert (forall m, addr s2 m = addr s1 m) as A1 by (intros m; unfold addr; rewrite En; reflexivity).
  constructor.
  - intros m. unfold live, par, addr, cache, CoordProofs.kids. rewrite En. apply D1.
  - lia.
  - apply (inv_mem _ s1 _ n); auto; [intros m Lm; apply Em, O1, Lm|intros m Lm _; apply Em, O1, Lm].
  - intros m Lm Nm. rewrite <- D4 by assumption. unfold local. rewrite A1. apply Em, O1. apply D1. exact Lm.
  - intros a Ka. destruct (D5 a Ka) as [(K1 & K2 & K3) <-]. split; [|apply Em; apply Ka]. split; [lia|]. rewrite A1. split; [exact K2|].
    unfold live, dirty, cache. rewrite En. exact K3.
  - unfold dirty. rewrite En. exact D6.
  - auto.
Qed.
Lemma during_new s n s1 E v : (forall m, E m -> m = n) -> during E s n s1 -> during E s n (snd (new F s1 v)).
Proof using Type.
  intros HE D. apply (during_mem s n s1); auto; [cbn; lia|]. intros x Hx. cbn. unfold upd. destruct (Nat.eqb_spec x (next s1)); [|reflexivity].
  pose proof (d_next _ _ _ _ D). lia.
Qed.
Lemma during_put_new s n s1 E a v : (forall m, E m -> m = n) -> during E s n s1 -> next s <= a -> during E s n (put s1 a v).
Proof using Type.
  intros HE D Ha. apply (during_mem s n s1); auto. intros x Hx. rewrite mem_put. destruct (Nat.eqb_spec x a); [lia|reflexivity].
Qed.
Lemma during_arg s n s1 E g (v : mtx F) : (forall m, E m -> m = n) -> during E s n s1 -> during E s n (set_arg F s1 g v).
Proof using Type. intros HE D. apply (during_mem s n s1); auto. Qed.
(** looking up the place of a frame *)
Lemma during_world s n s1 E x X : during E s n s1 -> pose s x X -> dirty s x = false \/ (forall m, above s m x -> ~ E m) -> Inv s -> live s n ->
  exists s2, runs (fun f => worldcoords f s1 x) (s2, cache s x) /\ calm s1 s2 /\ during E s n s2 /\ mem s2 (cache s x) = X /\ kept s2 n (cache s x).
Proof using Type.
  clear sub neg rth. intros D HX HC I Ln. pose proof (pose_live s x X HX) as L. pose proof D as [D1 D2 D3 D4 D5 D6 D7]. pose proof (i_s _ _ _ _ _ _ _ I) as [B1 B2 B3 B4 B5 B6].
  assert (live s1 x) as L1 by (apply D1; exact L). assert (cache s1 x = cache s x) as Ew by apply D1. destruct HC as [HC|HC].
  - exists s1. destruct (live_node F s1 x L1) as [d Hd]. destruct (of_node F s1 x d Hd) as (_ & _ & _ & W & _ & Fl).
    pose proof (D6 x HC) as HC1. split.
    { exists 1. intros f Hf. destruct f as [|f]; [lia|]. cbn [CoordModel.worldcoords]. rewrite Hd. rewrite <- Fl, HC1, <- W, Ew. reflexivity. }
    split; [apply calm_refl|]. split; [exact D|].
    destruct (inv_depth _ s x I L) as (k & Hk). pose proof (clean_pose F zero one add mul _ s x k I Hk (fun _ _ H => H) HC) as Hp.
    rewrite <- (pose_fun F add mul s x _ HX _ Hp). destruct (D5 (cache s x)) as [K <-]; [|auto].
    split; [apply D7; exact L|]. split; [apply not_eq_sym, B1; assumption|]. intros m Lm Fm. apply B3; [exact Lm|exact L|]. intros ->. congruence.
  - destruct (world_runs F zero one add mul bad E s1 x D3 L1) as (s2 & R & C & I2 & F2). rewrite Ew in R. exists s2. split; [exact R|]. split; [exact C|].
    pose proof (during_calm E s n s1 s2 D C I2) as D'. split; [exact D'|]. pose proof D' as [G1 G2 G3 G4 G5 G6 G7].
    assert (live s2 x) as L2 by (apply G1; exact L). assert (cache s2 x = cache s x) as Ew2 by apply G1.
    destruct (inv_depth _ s2 x G3 L2) as (k & Hk). split.
    + rewrite <- Ew2. assert (forall m, above s2 m x -> ~ E m) as HC2.
      { intros m Hm. apply HC. apply (tree_above F s2 s); [|exact Hm]. apply tree_sym, shape_tree. exact G1. }
      apply (pose_fun F add mul s2 x); [|apply (clean_pose F zero one add mul E s2 x k); assumption].
      apply (pose_above s); [|exact HX]. intros m Hm Lm. split; [apply G1; exact Lm|]. split; [apply G1|]. apply G4; [exact Lm|apply HC; exact Hm].
    + pose proof (i_s _ _ _ _ _ _ _ G3) as [Z1 Z2 Z3 Z4 Z5 Z6]. rewrite <- Ew2. split; [apply Z4; exact L2|]. split; [apply not_eq_sym, Z1; [apply G1; exact Ln|exact L2]|].
      intros m Lm Fm. apply Z3; [exact Lm|exact L2|]. intros ->. congruence.
Qed.
Lemma during_parent s n s1 E P : (forall m, E m -> m = n) -> during E s n s1 -> mother s n P -> Inv s -> live s n ->
  exists s2 pc, runs (fun f => parentcoords f s1 n) (s2, pc) /\ calm s1 s2 /\ during E s n s2 /\ mem s2 pc = P /\ kept s2 n pc.
Proof using Type.
  clear sub neg rth. intros HE D HP I L. pose proof D as [D1 D2 D3 D4 D5 D6 D7]. assert (live s1 n) as L1 by (apply D1; exact L).
  destruct (live_node F s1 n L1) as [d Hd]. destruct (of_node F s1 n d Hd) as (_ & Pd & _). assert (par s1 n = par s n) as Ep by apply D1.
  unfold CoordSpec.mother in HP. destruct (par s n) as [p|] eqn:En.
  - destruct (during_world s n s1 E p P D HP) as (s2 & R & C & D' & M2 & K2); try assumption.
    { right. intros m Hm Em. apply (not_above_par _ s n p I En). apply HE in Em. subst m. exact Hm. }
    exists s2, (cache s p). split; [|auto]. destruct R as (f0 & R). exists f0. intros f Hf. unfold CoordModel.parentcoords. rewrite Hd, <- Pd, Ep. apply R. exact Hf.
  - exists s1, 0. split; [exists 0; intros f _; unfold CoordModel.parentcoords; rewrite Hd, <- Pd, Ep; reflexivity|]. split; [apply calm_refl|]. split; [exact D|].
    pose proof (i_s _ _ _ _ _ _ _ D3) as [B1 B2 B3 B4 B5 B6]. split; [rewrite HP; exact B6|]. split; [exact B5|]. split; [destruct (B4 n L1); lia|].
    intros m Lm _. destruct (B4 m Lm). lia.
Qed.
Lemma during_local E s n s1 s2 : during E s n s1 -> calm s1 s2 -> live s n -> mem s2 (addr s n) = mem s1 (addr s n).
Proof using Type.
  intros D C L. pose proof (d_shape _ _ _ _ D n) as (L1 & _ & Ea & _). pose proof (c_shape _ _ _ C n) as (_ & _ & Eb & _). rewrite <- Ea.
  pose proof (calm_local F zero one s1 s2 n (i_s _ _ _ _ _ _ _ (d_inv _ _ _ _ D)) C ltac:(tauto)) as H. unfold local in H. rewrite Eb in H. exact H.
Qed.
Lemma during_fresh E s n s1 s2 a : during E s n s1 -> calm s1 s2 -> next s <= a -> mem s2 a = mem s1 a.
Proof using Type.
  purge. intros D C Ha. apply (c_mem _ _ _ C). intros m Lm _. destruct (d_shape _ _ _ _ D m) as (L & _ & _ & -> & _). destruct (d_own _ _ _ _ D) as [_ O].
  destruct (O m ltac:(tauto)). lia.
Qed.
Lemma during_kept E s n s1 s2 a : during E s n s1 -> calm s1 s2 -> kept s1 n a -> kept s2 n a /\ mem s2 a = mem s1 a.
Proof using Type. intros _ C. apply kept_calm. exact C. Qed.
Lemma moved_mother s s' n T P : Inv s -> moved s s' n T -> mother s n P -> mother s' n P.
Proof using Type.
  intros I (M1 & M2 & M3 & M4). unfold CoordSpec.mother. rewrite M2. destruct (par s n) as [p|] eqn:En; [|auto]. apply pose_above.
  intros m Hm Lm. split; [apply M1; exact Lm|]. split; [apply M2|]. apply M4; [|exact Lm]. intros ->. exact (not_above_par _ s n p I En Hm).
Qed.
Lemma finish s n si E a P : (forall m, E m -> m = n) -> Inv s -> rigid s -> live s n -> during E s n si ->
  (a = addr s n \/ 0 < a < next si /\ (next s <= a \/ free s a)) -> mother s n P -> orth (rot F (mem si a)) ->
  exists s', runs (fun f => newcoords f si n a) s' /\ Inv s' /\ rigid s' /\ moved s s' n (mem si a) /\ pose s' n (tc P (mem si a)) /\ args s' = args si.
Proof using rth.
  clear bad. intros HE I R L D Ha HP Ho. pose proof D as [D1 D2 D3 D4 D5 D6 D7].
  destruct (move_ok F zero one add mul si si n a) as (s' & R' & I' & (M1 & M2 & M3 & M4) & M5 & M6 & M7).
  - apply (InvE_weak _ _ _ _ _ E); assumption.
  - apply D1. exact L.
  - reflexivity.
  - reflexivity.
  - reflexivity.
  - destruct (D1 n) as (_ & _ & -> & _). destruct Ha as [Ha|[Hr Ha]]; [auto|right]. split; [exact Hr|]. intros m Lm. destruct (D1 m) as (Lm' & _ & -> & -> & _).
    assert (live s m) as L' by tauto. destruct Ha as [Ha|[_ Ha]]; [|apply Ha; exact L']. destruct D7 as [_ O]. destruct (O m L'). lia.
  - assert (moved s s' n (mem si a)) as Mv.
    { split; [intros m; rewrite M1; apply D1|]. split; [intros m; rewrite M2; apply D1|]. split; [exact M3|]. intros m Nm Lm.
      rewrite M4 by (try assumption; apply D1; exact Lm). apply D4; [exact Lm|]. intros Em. apply Nm, HE, Em. }
    exists s'. split; [exact R'|]. split; [exact I'|]. split; [|split; [exact Mv|split; [|exact M7]]].
    + intros m Lm. assert (live s m) as Lm' by (apply Mv; exact Lm). destruct (Nat.eq_dec m n) as [->|Nm]; [rewrite M3; exact Ho|].
      destruct Mv as (_ & _ & _ & Mv). rewrite Mv by assumption. apply R. exact Lm'.
    + rewrite <- M3. apply mother_pose; [apply Mv; exact L|]. apply (moved_mother s s' n (mem si a)); assumption.
Qed.
End Move.
