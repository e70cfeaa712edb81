(** Proofs about cascaded coordinates: :transformation, :assoc, :dissoc. *)
From Coq Require Import List Arith Bool Lia Ring.
From Verif Require Import CoordModel CoordSpec CoordProofs CoordProofs2 CoordProofs3 CoordProofs4 CoordProofs5.
Import ListNotations.

Section Trees.
Variables (F : Type) (zero one : F) (add mul sub : F -> F -> F) (neg : F -> F).
Hypothesis rth : ring_theory zero one add mul sub neg (@eq F).
Variable bad : coords F -> coords F.
Notation st := (st F). Notation tc := (tc F add mul). Notation inv := (inv F add mul neg). Notation U := (unit_coords F zero one).
Notation pose := (pose add mul). Notation worldcoords := (worldcoords F add mul bad). Notation newcoords := (newcoords F).
Notation nodes := (nodes F). Notation mem := (mem F). Notation next := (next F). Notation args := (args F). Notation put := (put F).
Notation Inv := (Inv F zero one add mul). Notation InvE := (InvE F zero one add mul). Notation calm := (calm F). Notation shape := (shape F).
Notation depth := (depth F). Notation orth := (orth zero one add mul). Notation rigid := (rigid zero one add mul). Notation mother := (mother zero one add mul).
Notation parentcoords := (parentcoords F add mul bad). Notation tcp := (tcp F add mul bad). Notation during := (during F zero one add mul).
Notation reference := (reference zero one add mul). Notation seen_from := (seen_from add mul neg). Notation usable := (usable zero one add mul).
Notation wrt_coords := (wrt_coords F add mul bad).
Implicit Types (s si : st) (E : nat -> Prop) (v : vec F).
Let assoc := tc_assoc F zero one add mul sub neg rth.
Let unit_l := tc_1l F zero one add mul sub neg rth.
Let unit_r := tc_1r F zero one add mul sub neg rth.
Let right_inv := inv_r F zero one add mul sub neg rth.
Let left_inv := inv_l F zero one add mul sub neg rth.
Let none : nat -> Prop := fun _ => False.
Let self (n : nat) : nat -> Prop := fun m => m = n.

Notation transform_vector := (transform_vector F add mul). Notation inverse_transform_vector := (inverse_transform_vector F add mul neg).
Notation mm := (mm F add mul). Notation mv := (mv F add mul). Notation mt := (mt F). Notation va := (va F add). Notation arrives := (arrives F zero one add mul).
Notation mul_assoc := (mm_assoc F zero one add mul sub neg rth).
Ltac osolve := repeat first [apply (orth_tc _ _ _ _ _ _ _ rth) | apply orth_inv | apply (orth_mm _ _ _ _ _ _ _ rth) | apply orth_mt]; auto.
Ltac mems := repeat (rewrite ?mem_put, ?Nat.eqb_refl; match goal with |- context [if ?a =? ?b then _ else _] => destruct (Nat.eqb_spec a b); [congruence|] end); rewrite ?mem_put, ?Nat.eqb_refl.
Notation other := other. Notation other_wrt := (other_wrt F zero one add mul bad). Notation mother_fun := (mother_fun F zero one add mul).
Notation cancel_r := (cancel_r F zero one add mul sub neg rth). Notation cancel_l := (cancel_l F zero one add mul sub neg rth).
Ltac start s n w W Y R I L HW HY Us d P :=
  destruct (pose_mother F zero one add mul sub neg rth s n W I HW) as (P & HP & EW); pose proof (mother_orth F zero one add mul sub neg rth s n P R HP) as OP;
  pose proof (reference_orth F zero one add mul sub neg rth s n w Y R HY Us) as OY; destruct (live_node F s n L) as [d Hd]; destruct (of_node F s n d Hd) as (_ & Pd & Ad & _);
  pose proof (norm_reference F zero one add mul s n d w Y Hd I HY) as HY'; pose proof (norm_other n d w) as Hn;
  assert (orth (rot F (local s n))) as OL by (apply R; exact L); pose proof (during_refl F zero one add mul none s n I) as D0;
  assert (forall m : nat, none m -> m = n) as HF by (intros ? []).


(** the frames are where they were *)
Definition still s s' : Prop :=
  Inv s' /\ (forall m, live s' m <-> live s m) /\ (forall m, par s' m = par s m) /\ (forall m, live s m -> local s' m = local s m).
Lemma during_still s n s' : during none s n s' -> still s s'.
Proof.
  intros D. split; [exact (d_inv _ _ _ _ _ _ _ _ _ D)|]. split; [intros m; apply (d_shape _ _ _ _ _ _ _ _ _ D)|]. split; [intros m; apply (d_shape _ _ _ _ _ _ _ _ _ D)|].
  intros m Lm. apply (d_loc _ _ _ _ _ _ _ _ _ D); [exact Lm|intros []].
Qed.
Lemma mem_newest s (v : coords F) : mem (snd (new F s v)) (next s) = v.
Proof. cbn [new snd CoordModel.mem]. unfold upd. rewrite Nat.eqb_refl. reflexivity. Qed.
Lemma inv_tc a b : orth (rot F a) -> orth (rot F b) -> inv (tc a b) = tc (inv b) (inv a).
Proof.
  intros Oa Ob. rewrite <- (unit_r (inv (tc a b))). assert (U = tc (tc a b) (tc (inv b) (inv a))) as ->.
  { rewrite assoc, cancel_l, right_inv; auto. }
  rewrite (assoc (inv (tc a b))), left_inv, unit_l; osolve.
Qed.
Lemma wrt_addr s n s1 s2 w a Y : during none s n s1 -> reference s n w Y -> usable s n w -> runs (fun f => wrt_coords f s1 w) (s2, a) -> a < next s.
Proof.
  intros D HY Us Rw. destruct w as [| | |x|x]; try (destruct Rw as (f0 & Rw); specialize (Rw f0 (le_n _)); discriminate).
  - cbn [CoordSpec.usable] in Us. assert (live s1 x) as L1 by (apply (d_shape _ _ _ _ _ _ _ _ _ D); exact Us).
    destruct (world_runs F zero one add mul bad none s1 x (d_inv _ _ _ _ _ _ _ _ _ D) L1) as (s' & R' & _). cbn [CoordModel.wrt_coords] in Rw.
    pose proof (runs_fun _ _ _ Rw R') as E. injection E as -> ->. destruct (d_shape _ _ _ _ _ _ _ _ _ D x) as (_ & _ & _ & -> & _). apply (d_own _ _ _ _ _ _ _ _ _ D). exact Us.
  - destruct Rw as (f0 & Rw). specialize (Rw f0 (le_n _)). cbn in Rw. injection Rw as -> ->. apply Us.
Qed.
Theorem transformation_ok s n m w W1 W2 Y : Inv s -> rigid s -> live s n -> usable s n w -> pose s n W1 -> pose s m W2 -> reference s n w Y ->
  exists s' a, runs (fun f => transformation F add mul neg bad f s n m w) (s', a) /\ still s s' /\ next s <= a < next s' /\ seen_from Y (mem s' a) W1 = W2.
Proof.
  intros I R L Us HW HM HY. start s n w W1 Y R I L HW HY Us d P. 
  assert (orth (rot F W1)) as O1 by (rewrite EW; osolve). pose proof (pose_orth F zero one add mul sub neg rth s m W2 R HM) as O2.
  destruct (during_world F zero one add mul bad s n s none m W2 D0 HM (or_intror (fun _ _ H => H)) I L) as (s1 & (f1 & R1) & C1 & D1 & M1 & K1).
  destruct (during_world F zero one add mul bad s n s1 none n W1 D1 HW (or_intror (fun _ _ H => H)) I L) as (s2 & (f2 & R2) & C2 & D2 & M2 & K2).
  destruct (kept_calm F s1 s2 n (cache s m) C2 K1) as [K1' M1']. rewrite M1 in M1'. set (w2 := cache s m) in *. set (w1 := cache s n) in *.
  set (s3 := snd (new F s2 (inv (mem s2 w1)))). set (i := next s2). assert (next s <= i) as Hi by exact (d_next _ _ _ _ _ _ _ _ _ D2).
  assert (during none s n s3) as D3 by (apply during_new; [exact HF|exact D2]).
  assert (mem s3 i = inv W1) as Mi by (unfold s3, i; rewrite mem_newest; congruence).
  assert (mem s3 w2 = W2) as Mw by (unfold s3; rewrite (mem_new F s2) by apply K1'; exact M1').
  assert (w2 <> i) as Nw by (destruct K1' as [? _]; unfold i; lia). assert (kept s3 n w2) as K3 by (apply kept_new; exact K1').
  assert (next s3 = S i) as N3 by reflexivity. assert (addr s n < next s) as Hl by (apply (d_own _ _ _ _ _ _ _ _ _ D0); exact L).
  assert (forall si a (v : coords F), during none s n si -> next s <= a < next si -> forall Q, tc Y (tc v (inv Y)) = Q -> tc Q W1 = W2 -> during none s n (put si a v) /\
    still s (put si a v) /\ next s <= a < next (put si a v) /\ seen_from Y (mem (put si a v) a) W1 = W2) as Last.
  { intros si a v D Ha Q E1 E2. assert (during none s n (put si a v)) as D' by (apply during_put_new; [exact HF|exact D|lia]). split; [exact D'|]. split; [apply (during_still s n); exact D'|]. split; [exact Ha|].
    rewrite mem_put, Nat.eqb_refl. unfold CoordSpec.seen_from. rewrite E1. exact E2. }
  assert (other (norm_wrt n d w) -> norm_wrt n d w = w -> exists s' a, runs (fun f => transformation F add mul neg bad f s n m w) (s', a) /\ still s s' /\
    next s <= a < next s' /\ seen_from Y (mem s' a) W1 = W2) as Oth.
  { intros Ho Ew. rewrite Ew in Ho. destruct (other_wrt s n s3 w Y D3 HY Us Ho I L) as (s4 & x & (f4 & R4) & C4 & D4 & M4 & K4).
    destruct (kept_calm F s3 s4 n w2 C4 K3) as [K4' Mw4]. pose proof (during_fresh F zero one add mul none s n s3 s4 i D3 C4 Hi) as Mi4.
    assert (next s4 = S i) as N4 by (rewrite (c_next _ _ _ C4); exact N3).
    set (s5 := put s4 i (tc (mem s4 i) (mem s4 x))). set (s6 := put s5 i (tc (mem s5 w2) (mem s5 i))). set (s7 := snd (new F s6 (inv (mem s6 x)))).
    assert (x < next s) as Hx by (apply (wrt_addr s n s3 s4 w x Y D3 HY Us); exists f4; exact R4).
    assert (mem s5 i = tc (inv W1) Y) as E5 by (unfold s5; rewrite mem_put, Nat.eqb_refl, Mi4, Mi, M4; reflexivity).
    assert (mem s5 w2 = W2) as E5' by (unfold s5; mems; congruence).
    assert (mem s6 i = tc W2 (tc (inv W1) Y)) as E6 by (unfold s6; rewrite mem_put, Nat.eqb_refl; congruence).
    assert (x <> i) as Nx by lia.
    assert (mem s6 x = Y) as E6' by (unfold s6, s5; mems; exact M4).
    assert (next s6 = S i) as N6 by exact N4. assert (next s7 = S (next s6)) as N7 by reflexivity.
    assert (mem s7 i = tc W2 (tc (inv W1) Y)) as E7 by (unfold s7; rewrite (mem_new F s6) by lia; exact E6).
    assert (mem s7 (next s6) = inv Y) as E7' by (unfold s7; rewrite mem_newest, E6'; reflexivity).
    destruct (Last s7 i (tc (inv Y) (tc W2 (tc (inv W1) Y)))) with (Q := tc W2 (inv W1)) as (D' & Z).
    + apply during_new; [exact HF|]. apply during_put_new; [exact HF| |lia]. apply during_put_new; [exact HF|exact D4|lia].
    + lia.
    + rewrite !assoc, right_inv, unit_l by exact OY. rewrite cancel_l by exact OY. reflexivity.
    + apply cancel_r. exact O1.
    + eexists _, i. split; [|exact Z]. exists (max (max f1 f2) f4). intros f Hf. unfold CoordModel.transformation. rewrite Hd, (R1 f), (R2 f) by lia. rewrite Ew.
      unfold inverse. change (new F s2 (inv (mem s2 w1))) with (i, s3). cbv beta iota zeta.
      destruct w as [| | |x'|x']; try contradiction; rewrite (R4 f) by lia; rewrite (tcp_put _ _ _ _ s4 i x i) by auto; fold s5; rewrite (tcp_put _ _ _ _ s5 w2 i i) by auto; fold s6;
        change (new F s6 (inv (mem s6 x))) with (next s6, s7); cbv beta iota zeta; rewrite (tcp_put _ _ _ _ s7 (next s6) i i) by (left; lia); rewrite E7, E7'; reflexivity. }
  destruct (norm_wrt n d w) as [| | |x|x] eqn:Ew.
  - destruct (Last s3 i (tc (inv W1) W2) D3 ltac:(lia) (tc W2 (inv W1))) as (D' & Z).
    + cbn [CoordSpec.reference] in HY'. rewrite (pose_fun F add mul s n _ HW _ HY'), !assoc, right_inv, unit_l; auto.
    + apply cancel_r. exact O1.
    + eexists _, i. split; [|exact Z]. exists (max f1 f2). intros f Hf. unfold CoordModel.transformation. rewrite Hd, (R1 f), (R2 f) by lia. rewrite Ew.
      unfold inverse. change (new F s2 (inv (mem s2 w1))) with (i, s3). cbv beta iota zeta. rewrite tcp_put by auto. rewrite Mi, Mw. reflexivity.
  - set (l := addr s n) in *. set (s4 := snd (new F s3 (inv (mem s3 l)))). set (j := next s3).
    assert (mem s3 l = local s n) as Ml.
    { unfold s3. rewrite (mem_new F s2) by (unfold i in *; lia). destruct (d_shape _ _ _ _ _ _ _ _ _ D2 n) as (_ & _ & Ea & _). unfold l. rewrite <- Ea. apply (d_loc _ _ _ _ _ _ _ _ _ D2); [exact L|intros []]. }
    assert (mem s4 l = local s n) as Ml4 by (unfold s4; rewrite (mem_new F s3) by lia; exact Ml).
    assert (mem s4 j = inv (local s n)) as Mj by (unfold s4, j; rewrite mem_newest, Ml; reflexivity).
    assert (mem s4 i = inv W1) as Mi4 by (unfold s4; rewrite (mem_new F s3) by lia; exact Mi).
    assert (mem s4 w2 = W2) as Mw4 by (unfold s4; rewrite (mem_new F s3) by apply K3; exact Mw).
    assert (w2 <> j /\ i <> j /\ l <> j) as (N1 & N2 & N4) by (destruct K3 as [? _]; unfold j; lia).
    set (s5 := put s4 j (tc W2 (inv (local s n)))). set (s6 := put s5 j (tc (inv W1) (tc W2 (inv (local s n))))).
    assert (during none s n s4) as D4 by (apply during_new; [exact HF|exact D3]).
    assert (next s <= j < next s6) as Hj by (unfold s6, s5, s4, j; cbn [CoordModel.put CoordModel.next new snd]; lia).
    destruct (Last s6 j (tc (local s n) (tc (inv W1) (tc W2 (inv (local s n))))) ) with (Q := tc W2 (inv W1)) as (D' & Z).
    + apply during_put_new; [exact HF| |lia]. apply during_put_new; [exact HF|exact D4|lia].
    + exact Hj.
    + cbn [CoordSpec.reference] in HY'. rewrite (mother_fun s n P Y HP HY'). rewrite !assoc, <- EW, right_inv, unit_l by exact O1.
      rewrite EW, inv_tc, assoc by assumption. reflexivity.
    + apply cancel_r. exact O1.
    + eexists _, j. split; [|exact Z]. exists (max f1 f2). intros f Hf. unfold CoordModel.transformation. rewrite Hd, (R1 f), (R2 f) by lia. rewrite Ew.
      unfold inverse. change (new F s2 (inv (mem s2 w1))) with (i, s3). cbv beta iota zeta. rewrite <- Ad. fold l. change (new F s3 (inv (mem s3 l))) with (j, s4). cbv beta iota zeta.
      rewrite (tcp_put _ _ _ _ s4 w2 j j) by auto. rewrite Mw4, Mj. fold s5. rewrite (tcp_put _ _ _ _ s5 i j j) by auto.
      assert (mem s5 i = inv W1) as -> by (unfold s5; mems; exact Mi4). assert (mem s5 j = tc W2 (inv (local s n))) as -> by (unfold s5; mems; reflexivity). fold s6.
      rewrite (tcp_put _ _ _ _ s6 l j j) by auto. assert (mem s6 l = local s n) as -> by (unfold s6, s5; mems; exact Ml4).
      assert (mem s6 j = tc (inv W1) (tc W2 (inv (local s n)))) as -> by (unfold s6; mems; reflexivity). reflexivity.
  - destruct (Last s3 i (tc W2 (inv W1)) D3 ltac:(lia) (tc W2 (inv W1))) as (D' & Z).
    + cbn [CoordSpec.reference] in HY'. subst Y. rewrite unit_l. replace (inv U) with U; [apply unit_r|]. rewrite <- (unit_l (inv U)). symmetry. apply right_inv. apply (orth_1 _ _ _ _ _ _ _ rth).
    + apply cancel_r. exact O1.
    + eexists _, i. split; [|exact Z]. exists (max f1 f2). intros f Hf. unfold CoordModel.transformation. rewrite Hd, (R1 f), (R2 f) by lia. rewrite Ew.
      unfold inverse. change (new F s2 (inv (mem s2 w1))) with (i, s3). cbv beta iota zeta. rewrite tcp_put by auto. rewrite Mi, Mw. reflexivity.
  - destruct Hn as [-> Nx]. apply Oth; cbn; auto.
  - subst w. apply Oth; cbn; auto.
Qed.
End Trees.
