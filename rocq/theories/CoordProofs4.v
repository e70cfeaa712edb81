(** Proofs about cascaded coordinates: :transform, :move-to, :translate, :locate, :rotate, :orient, :transformation. *)
From Coq Require Import List Arith Bool Lia Ring.
From Verif Require Import CoordModel CoordSpec CoordProofs CoordProofs2 CoordProofs3.
Import ListNotations.

Section Moves.
Variables (F : Type) (zero one : F) (add mul sub : F -> F -> F) (neg : F -> F).
Hypothesis rth : ring_theory zero one add mul sub neg (@eq F).
Variable bad : coords F -> coords F.
Notation st := (st F). Notation tc := (tc F add mul). Notation inv := (inv F add mul neg). Notation U := (unit_coords F zero one).
Notation pose := (pose add mul). Notation worldcoords := (worldcoords F add mul bad). Notation newcoords := (newcoords F).
Notation nodes := (nodes F). Notation mem := (mem F). Notation next := (next F). Notation args := (args F). Notation put := (put F).
Notation Inv := (Inv F zero one add mul). Notation InvE := (InvE F zero one add mul). Notation calm := (calm F). Notation shape := (shape F).
Notation depth := (depth F). Notation orth := (orth zero one add mul). Notation rigid := (rigid zero one add mul). Notation mother := (mother zero one add mul).
Notation parentcoords := (parentcoords F add mul bad). Notation tcp := (tcp F add mul bad). Notation during := (during F zero one add mul).
Notation reference := (reference zero one add mul). Notation seen_from := (seen_from add mul neg). Notation usable := (usable zero one add mul).
Notation wrt_coords := (wrt_coords F add mul bad).
Implicit Types (s si : st) (E : nat -> Prop) (v : coords F).
Let assoc := tc_assoc F zero one add mul sub neg rth.
Let unit_l := tc_1l F zero one add mul sub neg rth.
Let unit_r := tc_1r F zero one add mul sub neg rth.
Let right_inv := inv_r F zero one add mul sub neg rth.
Let left_inv := inv_l F zero one add mul sub neg rth.
Let none : nat -> Prop := fun _ => False.
Let self (n : nat) : nat -> Prop := fun m => m = n.

Lemma runs_fun {A} (op : nat -> option A) a b : runs op a -> runs op b -> a = b.
Proof. intros (f & Hf) (g & Hg). specialize (Hf (max f g) ltac:(lia)). specialize (Hg (max f g) ltac:(lia)). congruence. Qed.
Lemma pose_mother s n W : Inv s -> pose s n W -> exists P, mother s n P /\ W = tc P (local s n).
Proof.
  intros I HW. pose proof (pose_live F add mul s n W HW) as L. destruct (mother_ex F zero one add mul s n) as (P & HP); [apply (inv_depth F zero one add mul _ s n I L)|].
  exists P. split; [exact HP|]. exact (eq_sym (pose_fun F add mul s n _ HW _ (mother_pose F zero one add mul sub neg rth s n P L HP))).
Qed.
(** the keyword that is used is about the same frame *)
Lemma near_reference s n d w Y : nodes s n = Some d -> reference s n w Y -> reference s n (near_wrt n d w) Y.
Proof.
  intros Hd. destruct (of_node F s n d Hd) as (_ & Pd & _). unfold near_wrt. destruct w as [| | |x|a]; try (intros H; exact H).
  cbn [CoordSpec.reference]. intros H. destruct (Nat.eqb_spec x n) as [->|Nx]; [exact H|]. destruct (parent d) as [p|] eqn:Ep; cbn [same_node]; [|exact H].
  destruct (Nat.eqb_spec p x) as [->|]; [|exact H]. cbn [CoordSpec.reference]. unfold CoordSpec.mother. rewrite Pd. exact H.
Qed.
Lemma norm_reference s n d w Y : nodes s n = Some d -> Inv s -> reference s n w Y -> reference s n (norm_wrt n d w) Y.
Proof.
  intros Hd I H. unfold norm_wrt. destruct w as [| | |x|[|a]]; try (apply near_reference; assumption).
  cbn [CoordSpec.reference] in *. subst Y. destruct (i_s _ _ _ _ _ _ _ I) as [B1 B2 B3 B4 B5 B6]. exact B6.
Qed.
Lemma near_other n d w : match near_wrt n d w with Frame x => w = Frame x /\ x <> n | Plain a => w = Plain a | _ => True end.
Proof. unfold near_wrt. destruct w as [| | |x|a]; auto. destruct (Nat.eqb_spec x n); [auto|]. destruct (same_node (parent d) x); auto. Qed.
Lemma norm_other n d w : match norm_wrt n d w with Frame x => w = Frame x /\ x <> n | Plain a => w = Plain a | _ => True end.
Proof. unfold norm_wrt. destruct w as [| | |x|[|a]]; try apply near_other. exact I. Qed.
(** looking up WRT *)
Lemma during_wrt s n s1 E w Y : (forall m, E m -> m = n) -> during E s n s1 -> reference s n w Y -> usable s n w ->
  match w with Frame x => dirty s x = false \/ (forall m, above s m x -> ~ E m) | Plain _ => True | _ => False end -> Inv s -> live s n ->
  exists s2 a, runs (fun f => wrt_coords f s1 w) (s2, a) /\ calm s1 s2 /\ during E s n s2 /\ mem s2 a = Y /\ kept s2 n a.
Proof.
  clear sub rth assoc unit_l unit_r right_inv left_inv. intros HE D HY Us Ap I L. destruct w as [| | |x|a]; try contradiction; cbn [CoordSpec.reference CoordSpec.usable] in *.
  - destruct (during_world F zero one add mul bad s n s1 E x Y D HY Ap I L) as (s2 & R & C & D' & M2 & K2). exists s2, (cache s x). auto.
  - exists s1, a. destruct (d_kept _ _ _ _ _ _ _ _ _ D a (proj1 Us)) as [K M]. split; [exists 0; reflexivity|]. split; [apply calm_refl|]. split; [exact D|]. split; [congruence|exact K].
Qed.
Lemma reference_orth s n w Y : rigid s -> reference s n w Y -> usable s n w -> orth (rot F Y).
Proof.
  intros R. destruct w as [| | |x|a]; cbn [CoordSpec.reference CoordSpec.usable]; intros H Us.
  - apply (pose_orth F zero one add mul sub neg rth s n); assumption.
  - apply (mother_orth F zero one add mul sub neg rth s n); assumption.
  - subst Y. apply (orth_1 _ _ _ _ _ _ _ rth).
  - apply (pose_orth F zero one add mul sub neg rth s x); assumption.
  - subst Y. apply Us.
Qed.
Definition arrives s n s' (W : coords F) : Prop := Inv s' /\ rigid s' /\ moved s s' n (local s' n) /\ pose s' n W.
Ltac osolve := repeat first [apply (orth_tc _ _ _ _ _ _ _ rth) | apply orth_inv]; auto.
Ltac mems := repeat (rewrite ?mem_put, ?Nat.eqb_refl; match goal with |- context [if ?a =? ?b then _ else _] => destruct (Nat.eqb_spec a b); [congruence|] end); rewrite ?mem_put, ?Nat.eqb_refl.

Lemma done s n si E a W P s0 : (forall m, E m -> m = n) -> Inv s -> rigid s -> live s n -> during E s n si ->
  (a = addr s n \/ 0 < a < next si /\ (next s <= a \/ free s a)) -> mother s n P -> orth (rot F (mem si a)) -> tc P (mem si a) = W ->
  s0 = si -> exists s', runs (fun f => newcoords f s0 n a) s' /\ arrives s n s' W /\ args s' = args si.
Proof.
  intros HE I R L D Ha HP Ho <- ->. destruct (finish F zero one add mul sub neg rth s n si E a P HE I R L D Ha HP Ho) as (s' & R' & I' & G' & M' & P' & A').
  exists s'. split; [exact R'|]. split; [|exact A']. split; [exact I'|]. split; [exact G'|]. split; [|exact P']. destruct M' as (M1 & M2 & M3 & M4). repeat split; try assumption; apply M1.
Qed.

Lemma kept_put s n l v a : kept s n a -> kept (put s l v) n a. Proof. intros K. exact K. Qed.
Lemma kept_new s n v a : kept s n a -> kept (snd (new F s v)) n a.
Proof. intros (K1 & K2 & K3). split; [cbn; lia|]. split; [exact K2|exact K3]. Qed.
Lemma mem_new s v a : a < next s -> mem (snd (new F s v)) a = mem s a.
Proof. intros Ha. cbn. unfold upd. destruct (Nat.eqb_spec a (next s)); [lia|reflexivity]. Qed.
Lemma transform_other s n c w W Y d : Inv s -> rigid s -> live s n -> kept s n c -> orth (rot F (mem s c)) -> usable s n w ->
  match w with Frame x => dirty s x = false \/ ~ above s n x | Plain _ => True | _ => False end -> norm_wrt n d w = w -> nodes s n = Some d ->
  pose s n W -> reference s n w Y ->
  exists s', runs (fun f => transform F add mul neg bad f s n c w) s' /\ arrives s n s' (seen_from Y (mem s c) W).
Proof.
  intros I R L Kc Oc Us Ap Ew Hd HW HY. destruct (pose_mother s n W I HW) as (P & HP & EW). pose proof (mother_orth F zero one add mul sub neg rth s n P R HP) as OP.
  pose proof (reference_orth s n w Y R HY Us) as OY. destruct (of_node F s n d Hd) as (_ & Pd & Ad & _).
  assert (orth (rot F (local s n))) as OL by (apply R; exact L).
  pose proof (during_refl F zero one add mul (fun _ => False) s n I) as D0. assert (forall m : nat, False -> m = n) as HF by tauto.
  assert (c <> addr s n) as Nc by apply Kc. unfold local in *.
  assert (match w with Frame x => dirty s x = false \/ (forall m, above s m x -> ~ self n m) | Plain _ => True | _ => False end) as Ap'.
  { destruct w as [| | |x|x]; auto. destruct Ap as [Ap|Ap]; [auto|right]. intros m Hm ->. exact (Ap Hm). }
  destruct (during_parent F zero one add mul bad s n s _ P HF D0 HP I L) as (s1 & pc & (f1 & R1) & C1 & D1 & M1 & K1).
  pose proof (during_local F zero one add mul _ s n s s1 D0 C1 L) as L1.
  assert (forall si, shape s si -> forall a, kept si n a -> a <> addr s n) as Nk.
  { intros si S a (_ & K & _). destruct (S n) as (_ & _ & Ea & _). congruence. }
  assert (forall si, next s <= next si -> next si <> addr s n) as Nn.
  { intros si Hi. destruct (i_s _ _ _ _ _ _ _ I) as [B1 B2 B3 B4 B5 B6]. destruct (B4 n L). lia. }
  set (l := addr s n) in *.
  assert (pc <> l) as Npc by (apply (Nk s1); [exact (d_shape _ _ _ _ _ _ _ _ _ D1)|exact K1]).
  set (s2 := put s1 l (tc (mem s1 pc) (mem s1 l))).
  assert (during (self n) s n s2) as D2 by (apply (during_put F zero one add mul s n s1 (fun _ => False)); auto).
  assert (kept s2 n pc) as K2 by exact K1.
  destruct (during_wrt s n s2 (self n) w Y) as (s3 & x & (f3 & R3) & C3 & D3 & M3 & Kx); auto.
  destruct (during_kept F zero one add mul _ s n s2 s3 pc D2 C3 K2) as [K3 Mp3]. pose proof (during_local F zero one add mul _ s n s2 s3 D2 C3 L) as L3.
  destruct (d_kept _ _ _ _ _ _ _ _ _ D3 c Kc) as [Kc3 Mc3].
  assert (x <> l) as Nx by (apply (Nk s3); [exact (d_shape _ _ _ _ _ _ _ _ _ D3)|exact Kx]).
  assert (next s3 <> l) as N3 by (apply Nn; exact (d_next _ _ _ _ _ _ _ _ _ D3)).
  set (s4 := snd (new F s3 (inv (mem s3 x)))). set (s5 := put s4 l (tc (mem s4 (next s3)) (mem s4 l))). set (s6 := put s5 l (tc (mem s5 c) (mem s5 l))).
  assert (during (self n) s n s6) as D6.
  { apply (during_put F zero one add mul s n s5 (self n)); auto. apply (during_put F zero one add mul s n s4 (self n)); auto. apply during_new; auto. }
  assert (l < next s3) as Hl by (destruct (i_s _ _ _ _ _ _ _ I) as [B1 B2 B3 B4 B5 B6]; destruct (B4 n L); pose proof (d_next _ _ _ _ _ _ _ _ _ D3); unfold l; lia).
  assert (mem s6 l = tc (mem s c) (tc (inv Y) (tc P (mem s l)))) as E6.
  { unfold s6, s5. mems. unfold s4. rewrite !mem_new by (try assumption; apply Kc3). cbn [new snd CoordModel.mem]. unfold upd. rewrite Nat.eqb_refl.
    fold l in L3. rewrite M3, Mc3, L3. unfold s2. mems. rewrite M1. fold l in L1. rewrite L1. reflexivity. }
  assert (kept s6 n pc) as K6 by (apply kept_new; exact K3).
  assert (mem s6 pc = P) as Mp6.
  { unfold s6, s5. mems. unfold s4. rewrite mem_new by apply K3. rewrite Mp3. unfold s2. mems. exact M1. }
  destruct (during_wrt s n s6 (self n) w Y) as (s7 & y & (f7 & R7) & C7 & D7 & M7 & Ky); auto.
  destruct (during_kept F zero one add mul _ s n s6 s7 pc D6 C7 K6) as [K7 Mp7]. pose proof (during_local F zero one add mul _ s n s6 s7 D6 C7 L) as L7. fold l in L7.
  assert (y <> l) as Ny by (apply (Nk s7); [exact (d_shape _ _ _ _ _ _ _ _ _ D7)|exact Ky]).
  set (s8 := put s7 l (tc (mem s7 y) (mem s7 l))). set (s9 := snd (new F s8 (inv (mem s8 pc)))). set (s10 := put s9 l (tc (mem s9 (next s8)) (mem s9 l))).
  assert (next s8 <> l) as N8 by (apply Nn; exact (d_next _ _ _ _ _ _ _ _ _ D7)).
  assert (l < next s8) as Hl8 by (destruct (i_s _ _ _ _ _ _ _ I) as [B1 B2 B3 B4 B5 B6]; destruct (B4 n L); pose proof (d_next _ _ _ _ _ _ _ _ _ D7); unfold l, s8; cbn; lia).
  assert (mem s10 l = tc (inv P) (tc Y (tc (mem s c) (tc (inv Y) (tc P (mem s l)))))) as E10.
  { unfold s10. mems. unfold s9. rewrite (mem_new s8 _ l) by exact Hl8. cbn [new snd CoordModel.mem]. unfold upd. rewrite Nat.eqb_refl. unfold s8. mems.
    rewrite Mp7, Mp6, M7, L7, E6. reflexivity. }
  destruct (done s n s10 (self n) l (seen_from Y (mem s c) W) P (tcp s9 (next s8) l l)) as (s' & (f0 & R') & A' & _); auto.
  - apply (during_put F zero one add mul s n s9 (self n)); auto. apply during_new; auto. apply (during_put F zero one add mul s n s7 (self n)); auto.
  - rewrite E10. osolve.
  - rewrite E10. rewrite assoc, right_inv, unit_l by exact OP. unfold CoordSpec.seen_from. rewrite EW, !assoc. reflexivity.
  - apply tcp_put. auto.
  - exists s'. split; [|exact A']. exists (max (max f0 f1) (max f3 f7)). intros f Hf. unfold CoordModel.transform. rewrite Hd, Ew, <- Ad. fold l.
    destruct w as [| | |w'|w']; try contradiction; rewrite (R1 f) by lia; rewrite (tcp_put _ _ _ _ s1 pc l l) by auto; fold s2; rewrite (R3 f) by lia; unfold inverse, new;
      fold (snd (new F s3 (inv (mem s3 x)))); cbv beta iota zeta; fold s4; rewrite (tcp_put _ _ _ _ s4 (next s3) l l) by auto; fold s5;
      rewrite (tcp_put _ _ _ _ s5 c l l) by auto; fold s6; rewrite (R7 f) by lia; rewrite (tcp_put _ _ _ _ s7 y l l) by auto; fold s8; apply R'; lia.
Qed.
Theorem transform_ok s n c w W Y : Inv s -> rigid s -> live s n -> kept s n c -> orth (rot F (mem s c)) -> usable s n w -> apart s n w ->
  pose s n W -> reference s n w Y ->
  exists s', runs (fun f => transform F add mul neg bad f s n c w) s' /\ arrives s n s' (seen_from Y (mem s c) W).
Proof.
  intros I R L Kc Oc Us Ap HW HY. destruct (pose_mother s n W I HW) as (P & HP & EW). pose proof (mother_orth F zero one add mul sub neg rth s n P R HP) as OP.
  pose proof (reference_orth s n w Y R HY Us) as OY. destruct (live_node F s n L) as [d Hd]. destruct (of_node F s n d Hd) as (_ & Pd & Ad & _).
  pose proof (norm_reference s n d w Y Hd I HY) as HY'. pose proof (norm_other n d w) as Hn. assert (orth (rot F (local s n))) as OL by (apply R; exact L).
  pose proof (during_refl F zero one add mul (fun _ => False) s n I) as D0. assert (forall m : nat, False -> m = n) as HF by tauto.
  assert (c <> addr s n) as Nc by apply Kc. unfold local in *.
  destruct (norm_wrt n d w) as [| | |x|x] eqn:Ew.
  - (* :local *)
    destruct (done s n (put s (addr s n) (tc (mem s (addr s n)) (mem s c))) (self n) (addr s n) (seen_from Y (mem s c) W) P (tcp s (addr s n) c (addr s n))) as (s' & (f0 & R') & A' & _); auto.
    + apply (during_put F zero one add mul s n s (fun _ => False)); auto.
    + rewrite mem_put, Nat.eqb_refl. osolve.
    + rewrite mem_put, Nat.eqb_refl. cbn [CoordSpec.reference] in HY'. rewrite (pose_fun F add mul s n _ HW _ HY'). unfold CoordSpec.seen_from. rewrite !assoc, <- EW.
      rewrite <- (assoc (tc W (mem s c))), left_inv, unit_r; [reflexivity|]. rewrite EW. osolve.
    + apply tcp_put. auto.
    + exists s'. split; [|exact A']. exists f0. intros f Hf. unfold CoordModel.transform. rewrite Hd, Ew, <- Ad. apply R'. exact Hf.
  - (* :parent *)
    destruct (done s n (put s (addr s n) (tc (mem s c) (mem s (addr s n)))) (self n) (addr s n) (seen_from Y (mem s c) W) P (tcp s c (addr s n) (addr s n))) as (s' & (f0 & R') & A' & _); auto.
    + apply (during_put F zero one add mul s n s (fun _ => False)); auto.
    + rewrite mem_put, Nat.eqb_refl. osolve.
    + rewrite mem_put, Nat.eqb_refl. cbn [CoordSpec.reference] in HY'. assert (Y = P) as ->.
      { clear - HP HY'. unfold CoordSpec.mother in *. destruct (par s n); [apply (pose_fun F add mul s n0 P HP Y HY')|congruence]. }
      unfold CoordSpec.seen_from. rewrite EW, !assoc. rewrite <- (assoc (tc P (mem s c)) (inv P) P), left_inv, unit_r; auto.
    + apply tcp_put. auto.
    + exists s'. split; [|exact A']. exists f0. intros f Hf. unfold CoordModel.transform. rewrite Hd, Ew, <- Ad. apply R'. exact Hf.
  - (* :world *)
    destruct (during_parent F zero one add mul bad s n s _ P HF D0 HP I L) as (s1 & pc & (f1 & R1) & C1 & D1 & M1 & K1).
    pose proof (during_local F zero one add mul _ s n s s1 D0 C1 L) as L1.
    destruct (d_kept _ _ _ _ _ _ _ _ _ D1 c Kc) as [Kc1 Mc1]. set (l := addr s n) in *. 
    assert (pc <> l) as Npc by (destruct K1 as (_ & K1 & _); destruct (d_shape _ _ _ _ _ _ _ _ _ D1 n) as (_ & _ & Ea & _); unfold l; congruence).
    assert (next s1 <> l /\ next s1 <> pc) as [Ni Nj].
    { destruct (i_s _ _ _ _ _ _ _ I) as [B1 B2 B3 B4 B5 B6]. destruct (B4 n L). pose proof (d_next _ _ _ _ _ _ _ _ _ D1). destruct K1 as [? _]. unfold l. lia. }
    set (s2 := put s1 l (tc (mem s1 pc) (mem s1 l))). set (s3 := put s2 l (tc (mem s2 c) (mem s2 l))).
    set (s4 := snd (new F s3 (inv (mem s3 pc)))). set (s5 := put s4 l (tc (mem s4 (next s3)) (mem s4 l))).
    assert (mem s5 l = tc (inv P) (tc (mem s c) (tc P (mem s l)))) as E5.
    { unfold s5. rewrite mem_put, Nat.eqb_refl. unfold s4. cbn [new snd CoordModel.mem]. unfold upd. rewrite Nat.eqb_refl.
      replace (next s3) with (next s1) by reflexivity. destruct (Nat.eqb_spec l (next s1)); [congruence|]. unfold s3, s2. mems. congruence. }
    destruct (done s n s5 (self n) l (seen_from Y (mem s c) W) P (tcp s4 (next s3) l l)) as (s' & (f0 & R') & A' & _); auto.
    + unfold s5. apply (during_put F zero one add mul s n s4 (self n)); auto. unfold s4. apply during_new; auto.
      unfold s3. apply (during_put F zero one add mul s n s2 (self n)); auto. unfold s2. apply (during_put F zero one add mul s n s1 (fun _ => False)); auto.
    + rewrite E5. osolve.
    + rewrite E5. cbn [CoordSpec.reference] in HY'. subst Y. rewrite assoc, right_inv, unit_l by exact OP. unfold CoordSpec.seen_from. rewrite <- EW, unit_l.
      replace (inv U) with U; [rewrite unit_r; reflexivity|]. rewrite <- (unit_l (inv U)). symmetry. apply right_inv. apply (orth_1 _ _ _ _ _ _ _ rth).
    + unfold s5. apply tcp_put. left. exact Ni.
    + exists s'. split; [|exact A']. exists (max f0 f1). intros f Hf. unfold CoordModel.transform. rewrite Hd, Ew, <- Ad, (R1 f) by lia. fold l.
      cbv beta iota zeta. rewrite (tcp_put _ _ _ _ s1 pc l l) by auto. fold s2. rewrite (tcp_put _ _ _ _ s2 c l l) by auto. fold s3. unfold inverse, new.
      apply R'. lia.
  - destruct Hn as [-> Nx]. apply (transform_other s n c (Frame x) W Y d); auto. destruct Ap as [Ap|[Ap|Ap]]; [contradiction|auto|auto].
  - subst w. apply (transform_other s n c (Plain x) W Y d); auto.
Qed.
End Moves.
