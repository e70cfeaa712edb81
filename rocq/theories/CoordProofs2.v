(** Proofs about cascaded coordinates: the operations. *)
From Coq Require Import List Arith Bool Lia Ring.
From Verif Require Import CoordModel CoordSpec CoordProofs.
Import ListNotations.

Section Ops.
Set Default Proof Using "Type".
Variables (F : Type) (zero one : F) (add mul sub : F -> F -> F) (neg : F -> F).
Hypothesis rth : ring_theory zero one add mul sub neg (@eq F).
Variable bad : coords F -> coords F.
Notation st := (st F). Notation tc := (tc F add mul). Notation inv := (inv F add mul neg). Notation U := (unit_coords F zero one).
Notation pose := (pose add mul). Notation worldcoords := (worldcoords F add mul bad). Notation mark := (mark F). Notation newcoords := (newcoords F).
Notation nodes := (nodes F). Notation mem := (mem F). Notation next := (next F). Notation args := (args F).
Notation Inv := (Inv F zero one add mul). Notation InvE := (InvE F zero one add mul). Notation calm := (calm F). Notation shape := (shape F).
Notation kids := (kids F). Notation depth := (depth F). Notation bounded := (bounded F).
Notation links := (links F). Notation sep := (sep F zero one). Notation mono := (mono F). Notation coh := (coh F add mul). Notation coh1 := (coh1 F add mul).
Implicit Types s si : st.

Lemma mark_mono : forall f s n s', mark f s n = Some s' -> forall f', f <= f' -> mark f' s n = Some s'.
Proof.
  induction f as [|f IH]; intros s n s' H f' Hf; [discriminate|]. destruct f' as [|f']; [lia|]. cbn [CoordModel.mark] in *.
  destruct (nodes s n) as [d|]; [|discriminate]. destruct (changed d); [exact H|].
  revert H. generalize (Some (setn F s n (set_changed d true))). induction (desc d) as [|c l IHl]; intros o H; cbn [fold_left] in *; [exact H|].
  destruct o as [s1|].
  - destruct (mark f s1 c) as [s2|] eqn:E; [rewrite (IH _ _ _ E f') by lia; apply IHl; exact H|]. exfalso. clear - H.
    induction l as [|x l IHl]; cbn [fold_left] in H; [discriminate|auto].
  - exfalso. clear - H. induction l as [|x l IHl]; cbn [fold_left] in H; [discriminate|auto].
Qed.
Lemma world_mono : forall f s n r, worldcoords f s n = Some r -> forall f', f <= f' -> worldcoords f' s n = Some r.
Proof.
  induction f as [|f IH]; intros s n r H f' Hf; [discriminate|]. destruct f' as [|f']; [lia|]. cbn [CoordModel.worldcoords] in *.
  destruct (nodes s n) as [d|]; [|discriminate]. destruct (changed d); [|exact H]. destruct (parent d) as [p|]; [|exact H].
  destruct (worldcoords f s p) as [[s1 a]|] eqn:E; [|discriminate]. rewrite (IH _ _ _ E f') by lia. exact H.
Qed.
(** only the tree matters for depth and order *)
Definition same_tree s s' := forall m, (live s' m <-> live s m) /\ par s' m = par s m.
Lemma shape_tree s s' : shape s s' -> same_tree s s'.
Proof. intros H m. destruct (H m) as (? & ? & _). auto. Qed.
Lemma tree_sym s s' : same_tree s s' -> same_tree s' s.
Proof. intros H m. destruct (H m) as (? & ?). split; [tauto|congruence]. Qed.
Lemma tree_depth s s' n k : same_tree s s' -> depth s n k -> depth s' n k.
Proof.
  intros H. induction 1 as [n L P|n p k L P _ IH].
  - constructor; [apply H; exact L|]. destruct (H n) as (_ & ->). exact P.
  - apply depth_S with p; [apply H; exact L| |exact IH]. destruct (H n) as (_ & ->). exact P.
Qed.
Lemma tree_above s s' n m : same_tree s s' -> above s n m -> above s' n m.
Proof. intros H. induction 1 as [|m p P _ IH]; [constructor|]. apply above_step with p; [|exact IH]. destruct (H m) as (_ & ->). exact P. Qed.
Lemma tree_bounded s s' H : same_tree s s' -> bounded s H -> bounded s' H.
Proof. intros T B m Lm. apply T in Lm. destruct (B m Lm) as (k & ? & ?). exists k. split; [assumption|]. apply (tree_depth s); assumption. Qed.
Lemma sep_shape s s' : shape s s' -> next s' = next s -> mem s' 0 = mem s 0 -> sep s -> sep s'.
Proof.
  intros S1 En Em [B1 B2 B3 B4 B5 B6]. constructor.
  - intros a b La Lb. destruct (S1 a) as (E1 & _ & -> & _ & _), (S1 b) as (E2 & _ & _ & -> & _). apply B1; tauto.
  - intros a b La Lb. destruct (S1 a) as (E1 & _ & -> & _ & _), (S1 b) as (E2 & _ & -> & _ & _). apply B2; tauto.
  - intros a b La Lb. destruct (S1 a) as (E1 & _ & _ & -> & _), (S1 b) as (E2 & _ & _ & -> & _). apply B3; tauto.
  - intros a La. destruct (S1 a) as (E1 & _ & -> & -> & _). rewrite En. apply B4. tauto.
  - rewrite En. exact B5.
  - rewrite Em. exact B6.
Qed.
Lemma world_runs E s n : InvE E s -> live s n ->
  exists s', runs (fun f => worldcoords f s n) (s', cache s n) /\ calm s s' /\ InvE E s' /\ dirty s' n = false.
Proof.
  intros I L. destruct (i_b _ _ _ _ _ _ _ I) as (H & HB). destruct (HB n L) as (k & _ & Hk).
  destruct (world_ok F zero one add mul bad E (S k) s n k I Hk ltac:(lia)) as (s' & E' & C & I' & Fn & _).
  exists s'. split; [|auto]. exists (S k). intros f Hf. apply (world_mono (S k)); assumption.
Qed.
(** ** :newcoords *)
Lemma settle s n d a : nodes s n = Some d -> (exists H, bounded s H) -> (forall p, above s n p -> links s p) ->
  (forall m q, m <> n -> par s m = Some q -> dirty s q = true -> dirty s m = true) ->
  coh (fun m => above s n m) s -> let s0 := setn F s n (set_loc d a) in sep s0 ->
  exists s', runs (fun f => newcoords f s n a) s' /\ shape s0 s' /\ mem s' = mem s /\ next s' = next s /\ args s' = args s /\
    mono s' /\ coh (fun _ => False) s' /\ sep s' /\ exists H, bounded s' H.
Proof.
  intros Hd (H & HB) HL HM HC s0 HS. destruct (of_node F s n d Hd) as (L & P & A & W & K & Fl).
  assert (same_tree s s0) as T0.
  { intros m. unfold s0. rewrite live_setn, par_setn. cbn [set_loc parent]. destruct (Nat.eqb_spec m n) as [->|]; split; try tauto; congruence. }
  assert (forall m, dirty s0 m = dirty s m) as F0 by (intros m; unfold s0; rewrite flag_setn; cbn [set_loc changed]; destruct (Nat.eqb_spec m n) as [->|]; congruence).
  assert (forall m, kids s0 m = kids s m) as K0 by (intros m; unfold s0; rewrite kids_setn; cbn [set_loc desc]; destruct (Nat.eqb_spec m n) as [->|]; congruence).
  assert (forall m, cache s0 m = cache s m) as W0 by (intros m; unfold s0; rewrite wca_setn; cbn [set_loc wc]; destruct (Nat.eqb_spec m n) as [->|]; congruence).
  destruct (HB n L) as (k & HkH & Hk).
  destruct (mark_ok F H (S H) s0 n k) as (s' & E & S1 & M1 & M2 & M3 & F1).
  - apply (tree_bounded s); assumption.
  - apply (tree_depth s); assumption.
  - lia.
  - intros p Hp c. rewrite K0. destruct (T0 c) as (_ & ->). apply HL. apply (tree_above s0 s); [apply tree_sym; exact T0|exact Hp].
  - intros p c Ha Pc. rewrite !F0. destruct (T0 c) as (_ & Ec). rewrite Ec in Pc. apply HM; [|exact Pc]. intros ->.
    apply (tree_above s0 s) in Ha; [|apply tree_sym; exact T0]. destruct (depth_par F s n p k Hk Pc) as (j & Ej & Hj).
    destruct (above_depth F s n p Ha j Hj) as (i & Hi & Hle & _). pose proof (depth_fun F s n k Hk i Hi). lia.
  - exists s'. split.
    { exists (S H). intros f Hf. unfold CoordModel.newcoords. rewrite Hd. apply (mark_mono (S H)); assumption. }
    assert (same_tree s s') as T1.
    { intros m. destruct (T0 m), (S1 m) as (? & ? & _). split; [tauto|congruence]. }
    assert (forall m, live s m -> dirty s' m = true <-> dirty s m = true \/ above s n m) as F2.
    { intros m Lm. rewrite (F1 m) by (apply T0; exact Lm). rewrite F0. split; (intros [?|Ha]; [auto|right]).
      - apply (tree_above s0 s); [apply tree_sym; exact T0|exact Ha].
      - apply (tree_above s s0); assumption. }
    split; [exact S1|]. split; [exact M1|]. split; [exact M2|]. split; [exact M3|]. split; [|split; [|split]].
    + intros m p Pm Fp. destruct (T1 m) as (_ & Em). rewrite Em in Pm. pose proof (par_live F s m p Pm) as Lm.
      assert (live s p) as Lp by (destruct (HB m Lm) as (j & _ & Hj); destruct (depth_par F s m p j Hj Pm) as (i & _ & Hi); exact (depth_live F s p i Hi)).
      apply F2; [exact Lm|]. apply F2 in Fp; [|exact Lp]. destruct Fp as [Fp|Fp]; [|right; apply above_step with p; assumption].
      destruct (Nat.eq_dec m n) as [->|Nm]; [right; constructor|left; apply (HM m p); assumption].
    + intros m Lm Fm _. apply T1 in Lm. destruct (dirty s m) eqn:Em; [exfalso; rewrite (proj2 (F2 m Lm)) in Fm; [discriminate|auto]|].
      assert (~ above s n m) as Na by (intros Ha; rewrite (proj2 (F2 m Lm)) in Fm; [discriminate|auto]).
      pose proof (HC m Lm Em Na) as Hm. unfold CoordProofs.coh1 in *.
      assert (m <> n) as Nm by (intros ->; apply Na; constructor).
      assert (forall x, cache s' x = cache s x) as Wx by (intros x; destruct (S1 x) as (_ & _ & _ & -> & _); apply W0).
      destruct (T1 m) as (_ & ->). rewrite Wx, M1. unfold s0, setn. cbn [CoordModel.mem].
      assert (local s' m = local s m) as El.
      { unfold local. rewrite M1. destruct (S1 m) as (_ & _ & -> & _). unfold s0. rewrite addr_setn. destruct (Nat.eqb_spec m n); [contradiction|reflexivity]. }
      rewrite El, Hm. destruct (par s m) as [p|]; [|reflexivity]. rewrite Wx. reflexivity.
    + apply (sep_shape s0); [exact S1|exact M2|rewrite M1; reflexivity|exact HS].
    + exists H. apply (tree_bounded s); assumption.
Qed.
Lemma move_ok s s1 n a : InvE (fun m => m = n) s -> live s n -> nodes s1 = nodes s ->
  (forall x, x <> a -> x <> addr s n -> x < next s -> mem s1 x = mem s x) -> next s <= next s1 ->
  (a = addr s n \/ 0 < a < next s1 /\ forall m, live s m -> addr s m <> a /\ cache s m <> a) ->
  exists s', runs (fun f => newcoords f s1 n a) s' /\ Inv s' /\ moved s s' n (mem s1 a) /\ mem s' = mem s1 /\ next s' = next s1 /\ args s' = args s1.
Proof.
  intros I L En Em Ex Ha. destruct (live_node F s n L) as [d Hd]. destruct (of_node F s n d Hd) as (_ & P & A & W & K & Fl).
  assert (forall m, live s1 m <-> live s m) as L1 by (intros m; unfold live; rewrite En; tauto).
  assert (forall m, par s1 m = par s m) as P1 by (intros m; unfold par; rewrite En; reflexivity).
  assert (forall m, addr s1 m = addr s m) as A1 by (intros m; unfold addr; rewrite En; reflexivity).
  assert (forall m, cache s1 m = cache s m) as W1 by (intros m; unfold cache; rewrite En; reflexivity).
  assert (forall m, kids s1 m = kids s m) as K1 by (intros m; unfold CoordProofs.kids; rewrite En; reflexivity).
  assert (forall m, dirty s1 m = dirty s m) as F1 by (intros m; unfold dirty; rewrite En; reflexivity).
  assert (same_tree s s1) as T1 by (intros m; auto).
  destruct (i_s _ _ _ _ _ _ _ I) as [B1 B2 B3 B4 B5 B6].
  assert (forall m, live s m -> mem s1 (cache s m) = mem s (cache s m)) as Mw.
  { intros m Lm. apply Em; [|apply not_eq_sym, B1; assumption|apply B4; exact Lm].
    destruct Ha as [->|[_ Ha]]; [apply not_eq_sym, B1; assumption|apply Ha; exact Lm]. }
  assert (forall m, live s m -> m <> n -> mem s1 (addr s m) = mem s (addr s m)) as Ml.
  { intros m Lm Nm. apply Em; [|apply B2; assumption|apply B4; exact Lm].
    destruct Ha as [->|[_ Ha]]; [apply B2; assumption|apply Ha; exact Lm]. }
  assert (mem s1 0 = U) as M0.
  { rewrite Em; [exact B6| | |exact B5]; [destruct Ha as [->|[? _]]; [|lia]|]; destruct (B4 n L); lia. }
  destruct (settle s1 n d a) as (s' & R & S1 & Q1 & Q2 & Q3 & Q4 & Q5 & Q6 & Q7).
  - rewrite En. exact Hd.
  - destruct (i_b _ _ _ _ _ _ _ I) as (H & HB). exists H. apply (tree_bounded s); assumption.
  - intros p _ c. rewrite K1, P1. apply (i_l _ _ _ _ _ _ _ I).
  - intros m p _ Pm. rewrite !F1. rewrite P1 in Pm. apply (i_m _ _ _ _ _ _ _ I). exact Pm.
  - intros m Lm Fm Na. apply L1 in Lm. rewrite F1 in Fm. assert (m <> n) as Nm by (intros ->; apply Na; constructor).
    pose proof (i_c _ _ _ _ _ _ _ I m Lm Fm Nm) as Hm. unfold CoordProofs.coh1, local in *. rewrite P1, A1, !W1, (Mw m Lm), Hm, (Ml m Lm Nm).
    destruct (par s m) as [p|] eqn:Ep; [|reflexivity]. rewrite W1, Mw; [reflexivity|]. apply (parent_live F zero one add mul _ s m p I Ep).
  - constructor.
    + intros x y Lx Ly. rewrite addr_setn, wca_setn. cbn [set_loc loc wc]. rewrite live_setn, L1 in Lx, Ly. rewrite A1, W1.
      assert (live s x) as Lx' by (destruct Lx as [->|]; assumption). assert (live s y) as Ly' by (destruct Ly as [->|]; assumption).
      replace (if y =? n then wc d else cache s y) with (cache s y) by (destruct (Nat.eqb_spec y n) as [->|]; congruence).
      destruct (x =? n); [|apply B1; assumption]. destruct Ha as [->|[_ Ha]]; [apply B1; assumption|apply not_eq_sym, Ha; exact Ly'].
    + intros x y Lx Ly Nxy. rewrite !addr_setn. cbn [set_loc loc wc]. rewrite live_setn, L1 in Lx, Ly. rewrite !A1.
      assert (live s x) as Lx' by (destruct Lx as [->|]; assumption). assert (live s y) as Ly' by (destruct Ly as [->|]; assumption).
      destruct (Nat.eqb_spec x n) as [->|]; destruct (Nat.eqb_spec y n) as [->|]; [congruence| | |apply B2; assumption].
      * destruct Ha as [->|[_ Ha]]; [apply B2; assumption|apply not_eq_sym, Ha; exact Ly'].
      * destruct Ha as [->|[_ Ha]]; [apply B2; assumption|apply Ha; exact Lx'].
    + intros x y Lx Ly Nxy. rewrite !wca_setn. cbn [set_loc loc wc]. rewrite live_setn, L1 in Lx, Ly. rewrite !W1.
      assert (live s x) as Lx' by (destruct Lx as [->|]; assumption). assert (live s y) as Ly' by (destruct Ly as [->|]; assumption).
      replace (if y =? n then wc d else cache s y) with (cache s y) by (destruct (Nat.eqb_spec y n) as [->|]; congruence).
      replace (if x =? n then wc d else cache s x) with (cache s x) by (destruct (Nat.eqb_spec x n) as [->|]; congruence). apply B3; assumption.
    + intros x Lx. rewrite addr_setn, wca_setn. cbn [set_loc loc wc setn CoordModel.next]. rewrite live_setn, L1 in Lx. rewrite A1, W1.
      assert (live s x) as Lx' by (destruct Lx as [->|]; assumption).
      replace (if x =? n then wc d else cache s x) with (cache s x) by (destruct (Nat.eqb_spec x n) as [->|]; congruence).
      destruct (B4 x Lx') as [X1 X2]. split; [|lia]. destruct (Nat.eqb_spec x n) as [->|]; [|lia]. destruct Ha as [->|[Ha _]]; lia.
    + cbn [setn CoordModel.next]. lia.
    + exact M0.
  - assert (forall m, (live s' m <-> live s m) /\ par s' m = par s m /\ addr s' m = (if m =? n then a else addr s m) /\ kids s' m = kids s m) as Acc.
    { intros m. destruct (S1 m) as (X1 & X2 & X3 & X4 & X5). rewrite live_setn, L1 in X1. rewrite par_setn, P1 in X2. rewrite addr_setn, A1 in X3.
      rewrite kids_setn, K1 in X5. cbn [set_loc parent loc desc] in *. rewrite X2, X3, X5.
      destruct (Nat.eqb_spec m n) as [->|]; repeat split; try tauto; try congruence. }
    exists s'. split; [exact R|]. split; [|split; [|auto]].
    + constructor; try assumption. intros p c. destruct (Acc p) as (_ & _ & _ & ->), (Acc c) as (_ & -> & _). apply (i_l _ _ _ _ _ _ _ I).
    + split; [intros m; apply (Acc m)|]. split; [intros m; apply (Acc m)|]. split.
      * unfold local. destruct (Acc n) as (_ & _ & -> & _). rewrite Nat.eqb_refl, Q1. reflexivity.
      * intros m Nm Lm. unfold local. destruct (Acc m) as (_ & _ & -> & _). destruct (Nat.eqb_spec m n); [contradiction|]. rewrite Q1. apply Ml; assumption.
Qed.
Lemma InvE_weak (E E' : nat -> Prop) s : (forall m, E m -> E' m) -> InvE E s -> InvE E' s.
Proof. intros H [I1 I2 I3 I4 I5]. constructor; auto. intros m Lm Fm Ne. apply I5; auto. Qed.
End Ops.
