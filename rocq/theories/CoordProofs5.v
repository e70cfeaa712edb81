(** Proofs about cascaded coordinates: :move-to, :translate, :locate, :rotate, :orient, :transformation. *)
From Coq Require Import List Arith Bool Lia Ring.
From Verif Require Import CoordModel CoordSpec CoordProofs CoordProofs2 CoordProofs3 CoordProofs4.
Import ListNotations.

Section More.
Variables (F : Type) (zero one : F) (add mul sub : F -> F -> F) (neg : F -> F).
Hypothesis rth : ring_theory zero one add mul sub neg (@eq F).
Variable bad : coords F -> coords F.
Notation st := (st F). Notation tc := (tc F add mul). Notation inv := (inv F add mul neg). Notation U := (unit_coords F zero one).
Notation pose := (pose add mul). Notation worldcoords := (worldcoords F add mul bad). Notation newcoords := (newcoords F).
Notation nodes := (nodes F). Notation mem := (mem F). Notation next := (next F). Notation args := (args F). Notation put := (put F).
Notation Inv := (Inv F zero one add mul). Notation InvE := (InvE F zero one add mul). Notation calm := (calm F). Notation shape := (shape F).
Notation depth := (depth F). Notation orth := (orth zero one add mul). Notation rigid := (rigid zero one add mul). Notation mother := (mother zero one add mul).
Notation parentcoords := (parentcoords F add mul bad). Notation tcp := (tcp F add mul bad). Notation during := (during F zero one add mul).
Notation reference := (reference zero one add mul). Notation seen_from := (seen_from add mul neg). Notation usable := (usable zero one add mul).
Notation wrt_coords := (wrt_coords F add mul bad).
Implicit Types (s si : st) (E : nat -> Prop) (v : vec F).
Let assoc := tc_assoc F zero one add mul sub neg rth.
Let unit_l := tc_1l F zero one add mul sub neg rth.
Let unit_r := tc_1r F zero one add mul sub neg rth.
Let right_inv := inv_r F zero one add mul sub neg rth.
Let left_inv := inv_l F zero one add mul sub neg rth.
Let none : nat -> Prop := fun _ => False.
Let self (n : nat) : nat -> Prop := fun m => m = n.

Notation transform_vector := (transform_vector F add mul). Notation inverse_transform_vector := (inverse_transform_vector F add mul neg).
Notation mm := (mm F add mul). Notation mv := (mv F add mul). Notation mt := (mt F). Notation va := (va F add). Notation arrives := (arrives F zero one add mul).
Notation mul_assoc := (mm_assoc F zero one add mul sub neg rth).
Ltac osolve := repeat first [apply (orth_tc _ _ _ _ _ _ _ rth) | apply orth_inv | apply (orth_mm _ _ _ _ _ _ _ rth) | apply orth_mt]; auto.
Ltac mems := repeat (rewrite ?mem_put, ?Nat.eqb_refl; match goal with |- context [if ?a =? ?b then _ else _] => destruct (Nat.eqb_spec a b); [congruence|] end); rewrite ?mem_put, ?Nat.eqb_refl.
Lemma cancel_r z a : orth (rot F a) -> tc (tc z (inv a)) a = z.
Proof. intros O. rewrite <- assoc, left_inv, unit_r; auto. Qed.
Lemma cancel_l z a : orth (rot F a) -> tc (tc z a) (inv a) = z.
Proof. intros O. rewrite <- assoc, right_inv, unit_r; auto. Qed.
Lemma mother_fun s n P Q : mother s n P -> mother s n Q -> Q = P.
Proof. unfold CoordSpec.mother. destruct (par s n) as [p|]; [intros H1 H2; exact (pose_fun F add mul s p P H1 Q H2)|congruence]. Qed.
Definition other (w : wrt) : Prop := match w with Frame _ | Plain _ => True | _ => False end.
Lemma other_wrt s n s1 w Y : during none s n s1 -> reference s n w Y -> usable s n w -> other w -> Inv s -> live s n ->
  exists s2 a, runs (fun f => wrt_coords f s1 w) (s2, a) /\ calm s1 s2 /\ during none s n s2 /\ mem s2 a = Y /\ kept s2 n a.
Proof.
  intros D HY Us Ho I L. apply (during_wrt F zero one add mul bad s n s1 none w Y); auto; [intros m []|].
  destruct w as [| | |x|x]; try exact Ho; right; intros m _ [].
Qed.
Ltac start s n w W Y R I L HW HY Us d P :=
  destruct (pose_mother F zero one add mul sub neg rth s n W I HW) as (P & HP & EW); pose proof (mother_orth F zero one add mul sub neg rth s n P R HP) as OP;
  pose proof (reference_orth F zero one add mul sub neg rth s n w Y R HY Us) as OY; destruct (live_node F s n L) as [d Hd]; destruct (of_node F s n d Hd) as (_ & Pd & Ad & _);
  pose proof (norm_reference F zero one add mul s n d w Y Hd I HY) as HY'; pose proof (norm_other n d w) as Hn;
  pose proof (near_reference F zero one add mul s n d w Y Hd HY) as HX'; pose proof (near_other n d w) as Hx;
  assert (orth (rot F (local s n))) as OL by (apply R; exact L); pose proof (during_refl F zero one add mul none s n I) as D0;
  assert (forall m : nat, none m -> m = n) as HF by (intros ? []).

Theorem move_to_ok s n c w W Y : Inv s -> rigid s -> live s n -> kept s n c -> (shares s n w -> free s c) -> orth (rot F (mem s c)) -> usable s n w ->
  pose s n W -> reference s n w Y ->
  exists s', runs (fun f => move_to F add mul neg bad f s n c w) s' /\ arrives s n s' (tc Y (mem s c)).
Proof.
  intros I R L Kc Hfree Oc Us HW HY. start s n w W Y R I L HW HY Us d P.
  assert (other (norm_wrt n d w) -> norm_wrt n d w = w ->
    exists s', runs (fun f => move_to F add mul neg bad f s n c w) s' /\ arrives s n s' (tc Y (mem s c))) as Oth.
  { intros Ho Ew. rewrite Ew in Ho. destruct (other_wrt s n s w Y D0 HY Us Ho I L) as (s1 & x & (f1 & R1) & C1 & D1 & M1 & K1).
    destruct (d_kept _ _ _ _ _ _ _ _ _ D1 c Kc) as [Kc1 Mc1]. set (s2 := snd (new F s1 (tc (mem s1 x) (mem s1 c)))).
    assert (during none s n s2) as D2 by (apply during_new; auto). assert (next s <= next s1) as N1 by exact (d_next _ _ _ _ _ _ _ _ _ D1).
    destruct (during_parent F zero one add mul bad s n s2 none P HF D2 HP I L) as (s3 & pc & (f3 & R3) & C3 & D3 & M3 & K3).
    pose proof (during_fresh F zero one add mul none s n s2 s3 (next s1) D2 C3 N1) as L3.
    assert (next s3 = next s2) as N3 by exact (c_next _ _ _ C3). set (s4 := snd (new F s3 (inv (mem s3 pc)))).
    assert (next s2 = S (next s1)) as N2 by reflexivity. assert (next s4 = S (next s3)) as N4 by reflexivity.
    assert (mem s4 (next s1) = tc Y (mem s c)) as E4.
    { unfold s4. rewrite (mem_new F s3) by lia. rewrite L3. unfold s2. cbn [new snd CoordModel.mem]. unfold upd. rewrite Nat.eqb_refl. congruence. }
    assert (mem s4 (next s3) = inv P) as E4'.
    { unfold s4. cbn [new snd CoordModel.mem]. unfold upd. rewrite Nat.eqb_refl. congruence. }
    set (s5 := put s4 (next s1) (tc (mem s4 (next s3)) (mem s4 (next s1)))).
    assert (mem s5 (next s1) = tc (inv P) (tc Y (mem s c))) as E5 by (unfold s5; rewrite mem_put, Nat.eqb_refl; congruence).
    destruct (done F zero one add mul sub neg rth s n s5 none (next s1) (tc Y (mem s c)) P (tcp s4 (next s3) (next s1) (next s1))) as (s' & (f0 & R') & A' & _); auto.
    - apply during_put_new; auto. apply during_new; auto.
    - right. split; [|auto]. unfold s5. cbn [CoordModel.put CoordModel.next]. pose proof (d_own _ _ _ _ _ _ _ _ _ D0). lia.
    - rewrite E5. osolve.
    - rewrite E5, assoc, right_inv, unit_l; auto.
    - apply tcp_put. left. lia.
    - exists s'. split; [|exact A']. exists (max f0 (max f1 f3)). intros f Hf. unfold CoordModel.move_to. rewrite Hd, Ew.
      destruct w as [| | |x'|x']; try contradiction; rewrite (R1 f) by lia; change (new F s1 (tc (mem s1 x) (mem s1 c))) with (next s1, s2); cbv beta iota zeta; rewrite (R3 f) by lia; apply R'; lia. }
  destruct (norm_wrt n d w) as [| | |x|x] eqn:Ew.
  - set (s2 := snd (new F s (tc (mem s (addr s n)) (mem s c)))).
    assert (mem s2 (next s) = tc (local s n) (mem s c)) as E2 by (unfold s2; cbn [new snd CoordModel.mem]; unfold upd; rewrite Nat.eqb_refl; reflexivity).
    destruct (done F zero one add mul sub neg rth s n s2 none (next s) (tc Y (mem s c)) P s2) as (s' & (f0 & R') & A' & _); auto.
    + apply during_new; auto.
    + right. split; [|auto]. pose proof (d_own _ _ _ _ _ _ _ _ _ D0). cbn. lia.
    + rewrite E2. osolve.
    + rewrite E2, assoc, <- EW. cbn [CoordSpec.reference] in HY'. rewrite (pose_fun F add mul s n _ HW _ HY'). reflexivity.
    + exists s'. split; [|exact A']. exists f0. intros f Hf. unfold CoordModel.move_to. rewrite Hd, Ew, <- Ad. apply R'. exact Hf.
  - assert (free s c) as Fc.
    { apply Hfree. clear - Ew Pd. unfold shares. destruct w as [| | |x|[|a]]; cbn [norm_wrt near_wrt] in Ew; try discriminate; auto.
      destruct (x =? n); [discriminate|]. unfold same_node in Ew. destruct (parent d) as [p|]; [|discriminate]. destruct (Nat.eqb_spec p x); [congruence|discriminate]. }
    destruct (done F zero one add mul sub neg rth s n s none c (tc Y (mem s c)) P s) as (s' & (f0 & R') & A' & _); auto.
    + right. split; [apply Fc|auto].
    + cbn [CoordSpec.reference] in HY'. rewrite (mother_fun s n P Y HP HY'). reflexivity.
    + exists s'. split; [|exact A']. exists f0. intros f Hf. unfold CoordModel.move_to. rewrite Hd, Ew. apply R'. exact Hf.
  - destruct (during_parent F zero one add mul bad s n s none P HF D0 HP I L) as (s1 & pc & (f1 & R1) & C1 & D1 & M1 & K1).
    destruct (d_kept _ _ _ _ _ _ _ _ _ D1 c Kc) as [Kc1 Mc1]. set (s2 := snd (new F s1 (inv (mem s1 pc)))).
    assert (mem s2 (next s1) = inv P) as E2 by (unfold s2; cbn [new snd CoordModel.mem]; unfold upd; rewrite Nat.eqb_refl; congruence).
    set (s3 := snd (new F s2 (tc (mem s2 (next s1)) (mem s2 c)))).
    assert (mem s3 (next s2) = tc (inv P) (mem s c)) as E3.
    { unfold s3; cbn [new snd CoordModel.mem]; unfold upd; rewrite Nat.eqb_refl. rewrite E2. unfold s2. rewrite (mem_new F s1) by apply Kc1. congruence. }
    destruct (done F zero one add mul sub neg rth s n s3 none (next s2) (tc Y (mem s c)) P s3) as (s' & (f0 & R') & A' & _); auto.
    + apply during_new; auto. apply during_new; auto.
    + right. pose proof (d_next _ _ _ _ _ _ _ _ _ D1). cbn. lia.
    + rewrite E3. osolve.
    + rewrite E3, assoc, right_inv by auto. cbn [CoordSpec.reference] in HY'. subst Y. reflexivity.
    + exists s'. split; [|exact A']. exists (max f0 f1). intros f Hf. unfold CoordModel.move_to. rewrite Hd, Ew, (R1 f) by lia. unfold inverse, new. apply R'. lia.
  - destruct Hn as [-> Nx]. apply Oth; cbn; auto.
  - subst w. apply Oth; cbn; auto.
Qed.
(** vectors brought to the frame of the mother *)
Lemma parent_looked s n s1 P d : during none s n s1 -> mother s n P -> Inv s -> live s n -> nodes s n = Some d ->
  match parent d with
  | Some p => exists s2 a, runs (fun f => worldcoords f s1 p) (s2, a) /\ calm s1 s2 /\ during none s n s2 /\ mem s2 a = P
  | None => P = U
  end.
Proof.
  intros D HP I L Hd. destruct (of_node F s n d Hd) as (_ & Pd & _). unfold CoordSpec.mother in HP. rewrite Pd in HP. destruct (parent d) as [p|]; [|exact HP].
  destruct (during_world F zero one add mul bad s n s1 none p P D HP (or_intror (fun m _ H => H)) I L) as (s2 & R & C & D' & M2 & K2).
  exists s2, (cache s p). auto.
Qed.
Lemma orientation_ok s n v w W Y P : Inv s -> rigid s -> live s n -> usable s n w -> pose s n W -> mother s n P -> reference s n w Y ->
  exists s2 v', runs (fun f => parent_orientation F add mul bad f s n v w) (s2, v') /\ during none s n s2 /\ mv (rot F P) v' = mv (rot F Y) v.
Proof.
  intros I R L Us HW HP0 HY. start s n w W Y R I L HW HY Us d Q. assert (Q = P) as E0 by (apply (mother_fun s n P Q); assumption). subst Q. clear HP0.
  assert (forall s1 v1 k, during none s n s1 -> (exists f0, forall f, f0 <= f -> k f = Some (s1, v1)) ->
    exists s2 v', (exists f0, forall f, f0 <= f -> match k f with Some (s, v) => match parent d with Some p => match worldcoords f s p with Some (s, x) => Some (s, mv (mt (rot F (mem s x))) v) | None => None end
         | None => Some (s, v) end | None => None end = Some (s2, v')) /\ during none s n s2 /\ mv (rot F P) v' = v1) as Last.
  { intros s1 v1 k D1 (f0 & Hk). pose proof (parent_looked s n s1 P d D1 HP I L Hd) as HL. destruct (parent d) as [p|].
    - destruct HL as (s2 & a & (f1 & R1) & C & D2 & M2). exists s2, (mv (mt (rot F P)) v1). split; [|split; [exact D2|]].
      + exists (max f0 f1). intros f Hf. rewrite Hk, R1 by lia. rewrite M2. reflexivity.
      + rewrite <- (mv_mm _ _ _ _ _ _ _ rth). destruct OP as [_ ->]. apply (mv_1 _ _ _ _ _ _ _ rth).
    - exists s1, v1. split; [exists f0; intros f Hf; rewrite Hk by exact Hf; reflexivity|]. split; [exact D1|]. rewrite HL. apply (mv_1 _ _ _ _ _ _ _ rth). }
  assert (other (near_wrt n d w) -> near_wrt n d w = w -> exists s2 v', runs (fun f => parent_orientation F add mul bad f s n v w) (s2, v') /\ during none s n s2 /\ mv (rot F P) v' = mv (rot F Y) v) as Oth.
  { intros Ho Ew. rewrite Ew in Ho. destruct (other_wrt s n s w Y D0 HY Us Ho I L) as (s1 & x & (f1 & R1) & C1 & D1 & M1 & K1).
    destruct (Last s1 (mv (rot F Y) v) (fun f => match wrt_coords f s w with Some (s, x) => Some (s, mv (rot F (mem s x)) v) | None => None end) D1) as (s2 & v' & (f2 & R2) & D2 & E2).
    - exists f1. intros f Hf. rewrite R1, M1 by exact Hf. reflexivity.
    - exists s2, v'. split; [|auto]. exists f2. intros f Hf. unfold parent_orientation. rewrite Hd, Ew. destruct w as [| | |x'|x']; try contradiction; exact (R2 f Hf). }
  destruct (near_wrt n d w) as [| | |x|x] eqn:Ew.
  - exists s, (mv (rot F (local s n)) v). split; [|split; [exact D0|]].
    + exists 0. intros f _. unfold parent_orientation. rewrite Hd, Ew. unfold local. rewrite Ad. reflexivity.
    + cbn [CoordSpec.reference] in HX'. rewrite (pose_fun F add mul s n _ HW _ HX'), EW. cbn [CoordModel.tc rot]. symmetry. apply (mv_mm _ _ _ _ _ _ _ rth).
  - exists s, v. split; [|split; [exact D0|]].
    + exists 0. intros f _. unfold parent_orientation. rewrite Hd, Ew. reflexivity.
    + cbn [CoordSpec.reference] in HX'. rewrite (mother_fun s n P Y HP HX'). reflexivity.
  - destruct (Last s v (fun f => Some (s, v)) D0) as (s2 & v' & (f2 & R2) & D2 & E2); [exists 0; reflexivity|]. exists s2, v'. split; [|split; [exact D2|]].
    + exists f2. intros f Hf. unfold parent_orientation. rewrite Hd, Ew. exact (R2 f Hf).
    + rewrite E2. cbn [CoordSpec.reference] in HX'. subst Y. symmetry. apply (mv_1 _ _ _ _ _ _ _ rth).
  - destruct Hx as [-> Nx]. apply Oth; cbn; auto.
  - subst w. apply Oth; cbn; auto.
Qed.
Lemma vector_ok s n v w W Y P : Inv s -> rigid s -> live s n -> usable s n w -> pose s n W -> mother s n P -> reference s n w Y ->
  exists s2 v', runs (fun f => parent_vector F add mul neg bad f s n v w) (s2, v') /\ during none s n s2 /\ transform_vector P v' = transform_vector Y v.
Proof.
  intros I R L Us HW HP0 HY. start s n w W Y R I L HW HY Us d Q. assert (Q = P) as E0 by (apply (mother_fun s n P Q); assumption). subst Q. clear HP0.
  assert (forall u, transform_vector U u = u) as TU.
  { intros u. unfold CoordModel.transform_vector. cbn [rot pos unit_coords]. rewrite (mv_1 _ _ _ _ _ _ _ rth). apply (va_0r _ _ _ _ _ _ _ rth). }
  assert (forall s1 v1 k, during none s n s1 -> (exists f0, forall f, f0 <= f -> k f = Some (s1, v1)) ->
    exists s2 v', (exists f0, forall f, f0 <= f -> match k f with Some (s, v) => match parent d with Some p => match worldcoords f s p with Some (s, x) => Some (s, inverse_transform_vector (mem s x) v) | None => None end
         | None => Some (s, v) end | None => None end = Some (s2, v')) /\ during none s n s2 /\ transform_vector P v' = v1) as Last.
  { intros s1 v1 k D1 (f0 & Hk). pose proof (parent_looked s n s1 P d D1 HP I L Hd) as HL. destruct (parent d) as [p|].
    - destruct HL as (s2 & a & (f1 & R1) & C & D2 & M2). exists s2, (inverse_transform_vector P v1). split; [|split; [exact D2|]].
      + exists (max f0 f1). intros f Hf. rewrite Hk, R1 by lia. rewrite M2. reflexivity.
      + apply (transform_inv F zero one add mul sub neg rth). exact OP.
    - exists s1, v1. split; [exists f0; intros f Hf; rewrite Hk by exact Hf; reflexivity|]. split; [exact D1|]. rewrite HL. apply TU. }
  assert (other (near_wrt n d w) -> near_wrt n d w = w -> exists s2 v', runs (fun f => parent_vector F add mul neg bad f s n v w) (s2, v') /\ during none s n s2 /\ transform_vector P v' = transform_vector Y v) as Oth.
  { intros Ho Ew. rewrite Ew in Ho. destruct (other_wrt s n s w Y D0 HY Us Ho I L) as (s1 & x & (f1 & R1) & C1 & D1 & M1 & K1).
    destruct (Last s1 (transform_vector Y v) (fun f => match wrt_coords f s w with Some (s, x) => Some (s, transform_vector (mem s x) v) | None => None end) D1) as (s2 & v' & (f2 & R2) & D2 & E2).
    - exists f1. intros f Hf. rewrite R1, M1 by exact Hf. reflexivity.
    - exists s2, v'. split; [|auto]. exists f2. intros f Hf. unfold parent_vector. rewrite Hd, Ew. destruct w as [| | |x'|x']; try contradiction; exact (R2 f Hf). }
  destruct (near_wrt n d w) as [| | |x|x] eqn:Ew.
  - exists s, (transform_vector (local s n) v). split; [|split; [exact D0|]].
    + exists 0. intros f _. unfold parent_vector. rewrite Hd, Ew. unfold local. rewrite Ad. reflexivity.
    + cbn [CoordSpec.reference] in HX'. rewrite (pose_fun F add mul s n _ HW _ HX'), EW. symmetry. apply (transform_tc F zero one add mul sub neg rth).
  - exists s, v. split; [|split; [exact D0|]].
    + exists 0. intros f _. unfold parent_vector. rewrite Hd, Ew. reflexivity.
    + cbn [CoordSpec.reference] in HX'. rewrite (mother_fun s n P Y HP HX'). reflexivity.
  - destruct (Last s v (fun f => Some (s, v)) D0) as (s2 & v' & (f2 & R2) & D2 & E2); [exists 0; reflexivity|]. exists s2, v'. split; [|split; [exact D2|]].
    + exists f2. intros f Hf. unfold parent_vector. rewrite Hd, Ew. exact (R2 f Hf).
    + rewrite E2. cbn [CoordSpec.reference] in HX'. subst Y. symmetry. apply TU.
  - destruct Hx as [-> Nx]. apply Oth; cbn; auto.
  - subst w. apply Oth; cbn; auto.
Qed.
Theorem translate_ok s n v w W Y : Inv s -> rigid s -> live s n -> usable s n w -> pose s n W -> reference s n w Y ->
  exists s', runs (fun f => translate F add mul bad f s n v w) s' /\ arrives s n s' (C F (rot F W) (va (pos F W) (mv (rot F Y) v))).
Proof.
  intros I R L Us HW HY. destruct (pose_mother F zero one add mul sub neg rth s n W I HW) as (P & HP & EW).
  destruct (orientation_ok s n v w W Y P I R L Us HW HP HY) as (s1 & v' & (f1 & R1) & D1 & E1). 
  destruct (d_shape _ _ _ _ _ _ _ _ _ D1 n) as (L1 & _ & Ea & _). destruct (live_node F s1 n) as [d Hd]; [tauto|]. destruct (of_node F s1 n d Hd) as (_ & _ & Ad & _).
  assert (mem s1 (addr s n) = local s n) as El by (rewrite <- Ea; apply (d_loc _ _ _ _ _ _ _ _ _ D1); [exact L|intros []]).
  assert (loc d = addr s n) as Ed by congruence.
  set (s2 := put s1 (addr s n) (C F (rot F (mem s1 (addr s n))) (va v' (pos F (mem s1 (addr s n)))))).
  assert (mem s2 (addr s n) = C F (rot F (local s n)) (va v' (pos F (local s n)))) as E2 by (unfold s2; rewrite mem_put, Nat.eqb_refl, El; reflexivity).
  destruct (done F zero one add mul sub neg rth s n s2 (self n) (addr s n) (C F (rot F W) (va (pos F W) (mv (rot F Y) v))) P s2) as (s' & (f0 & R') & A' & _); auto.
  - apply (during_put F zero one add mul s n s1 none); [intros m []|exact L|exact D1].
  - rewrite E2. apply R. exact L.
  - rewrite E2, EW. unfold CoordModel.tc. cbn [rot pos]. f_equal. rewrite (mv_va _ _ _ _ _ _ _ rth), E1.
    rewrite (va_comm _ _ _ _ _ _ _ rth (mv (rot F Y) v)). apply (va_assoc _ _ _ _ _ _ _ rth).
  - exists s'. split; [|exact A']. exists (max f0 f1). intros f Hf. unfold CoordModel.translate. rewrite (R1 f) by lia. rewrite Hd, Ed. apply R'. lia.
Qed.
Theorem locate_ok s n v w W Y : Inv s -> rigid s -> live s n -> usable s n w -> pose s n W -> reference s n w Y ->
  exists s', runs (fun f => locate F add mul neg bad f s n v w) s' /\ arrives s n s' (C F (rot F W) (transform_vector Y v)).
Proof.
  intros I R L Us HW HY. destruct (pose_mother F zero one add mul sub neg rth s n W I HW) as (P & HP & EW).
  destruct (vector_ok s n v w W Y P I R L Us HW HP HY) as (s1 & v' & (f1 & R1) & D1 & E1). 
  destruct (d_shape _ _ _ _ _ _ _ _ _ D1 n) as (L1 & _ & Ea & _). destruct (live_node F s1 n) as [d Hd]; [tauto|]. destruct (of_node F s1 n d Hd) as (_ & _ & Ad & _).
  assert (mem s1 (addr s n) = local s n) as El by (rewrite <- Ea; apply (d_loc _ _ _ _ _ _ _ _ _ D1); [exact L|intros []]).
  assert (loc d = addr s n) as Ed by congruence.
  set (s2 := put s1 (addr s n) (C F (rot F (mem s1 (addr s n))) v')).
  assert (mem s2 (addr s n) = C F (rot F (local s n)) v') as E2 by (unfold s2; rewrite mem_put, Nat.eqb_refl, El; reflexivity).
  destruct (done F zero one add mul sub neg rth s n s2 (self n) (addr s n) (C F (rot F W) (transform_vector Y v)) P s2) as (s' & (f0 & R') & A' & _); auto.
  - apply (during_put F zero one add mul s n s1 none); [intros m []|exact L|exact D1].
  - rewrite E2. apply R. exact L.
  - rewrite E2, EW. unfold CoordModel.tc. cbn [rot pos]. f_equal. rewrite <- E1. unfold CoordModel.transform_vector. apply (va_comm _ _ _ _ _ _ _ rth).
  - exists s'. split; [|exact A']. exists (max f0 f1). intros f Hf. unfold CoordModel.locate. rewrite (R1 f) by lia. rewrite Hd, Ed. apply R'. lia.
Qed.
Theorem rotate_ok s n g w W Y : Inv s -> rigid s -> live s n -> orth (args s g) -> usable s n w -> pose s n W -> reference s n w Y ->
  exists s', runs (fun f => rotate_with_matrix F add mul bad f s n g w) s' /\
    arrives s n s' (C F (mm (mm (rot F Y) (mm (args s g) (mt (rot F Y)))) (rot F W)) (pos F W)).
Proof.
  intros I R L Og Us HW HY. start s n w W Y R I L HW HY Us d P. set (T := C F _ _). set (l := addr s n) in *.
  assert (forall si r, during none s n si -> orth r -> mm (rot F P) (mm r (rot F (local s n))) = rot F T ->
    exists s', runs (fun f => newcoords f (set_rot F si l (mm r (rot F (mem si l)))) n l) s' /\ arrives s n s' T) as Last.
  { intros si r D Or Er. assert (mem si l = local s n) as El.
    { destruct (d_shape _ _ _ _ _ _ _ _ _ D n) as (_ & _ & Ea & _). unfold l. rewrite <- Ea. apply (d_loc _ _ _ _ _ _ _ _ _ D); [exact L|intros []]. }
    set (s2 := put si l (C F (mm r (rot F (mem si l))) (pos F (mem si l)))).
    assert (mem s2 l = C F (mm r (rot F (local s n))) (pos F (local s n))) as E2 by (unfold s2; rewrite mem_put, Nat.eqb_refl, El; reflexivity).
    destruct (done F zero one add mul sub neg rth s n s2 (self n) l T P s2) as (s' & R' & A' & _); auto.
    - apply (during_put F zero one add mul s n si none); [intros m []|exact L|exact D].
    - rewrite E2. cbn [rot]. osolve.
    - rewrite E2. unfold CoordModel.tc. cbn [rot pos]. rewrite Er. unfold T. cbn [rot pos]. f_equal. rewrite EW. reflexivity.
    - exists s'. auto. }
  assert (rot F W = mm (rot F P) (rot F (local s n))) as ER by (rewrite EW; reflexivity).
  assert (other (near_wrt n d w) -> near_wrt n d w = w -> exists s', runs (fun f => rotate_with_matrix F add mul bad f s n g w) s' /\ arrives s n s' T) as Oth.
  { intros Ho Ew. rewrite Ew in Ho.
    destruct (during_parent F zero one add mul bad s n s none P HF D0 HP I L) as (s1 & pc & (f1 & R1) & C1 & D1 & M1 & K1).
    destruct (other_wrt s n s1 w Y D1 HY Us Ho I L) as (s2 & x & (f2 & R2) & C2 & D2 & M2 & K2).
    destruct (during_kept F zero one add mul _ s n s1 s2 pc D1 C2 K1) as [_ Mp2].
    assert (args s2 = args s) as Ea by (rewrite (c_args _ _ _ C2), (c_args _ _ _ C1); reflexivity).
    destruct (Last s2 (mm (mt (rot F P)) (mm (mm (mm (rot F Y) (args s g)) (mt (rot F Y))) (rot F P))) D2) as (s' & (f0 & R') & A').
    - osolve.
    - unfold T. cbn [rot]. rewrite ER, !mul_assoc. destruct OP as [_ ->]. rewrite (mm_1l _ _ _ _ _ _ _ rth). reflexivity.
    - exists s'. split; [|exact A']. exists (max f0 (max f1 f2)). intros f Hf. unfold CoordModel.rotate_with_matrix. rewrite Hd, Ew, <- Ad.
      destruct w as [| | |x'|x']; try contradiction; rewrite (R1 f) by lia; rewrite (R2 f) by lia; rewrite M2, Mp2, M1, Ea; apply R'; lia. }
  destruct (near_wrt n d w) as [| | |x|x] eqn:Ew.
  - set (s2 := put s l (C F (mm (rot F (mem s l)) (args s g)) (pos F (mem s l)))).
    assert (mem s2 l = C F (mm (rot F (local s n)) (args s g)) (pos F (local s n))) as E2 by (unfold s2; rewrite mem_put, Nat.eqb_refl; reflexivity).
    destruct (done F zero one add mul sub neg rth s n s2 (self n) l T P s2) as (s' & (f0 & R') & A' & _); auto.
    + apply (during_put F zero one add mul s n s none); [intros m []|exact L|exact D0].
    + rewrite E2. cbn [rot]. osolve.
    + rewrite E2. unfold CoordModel.tc, T. cbn [rot pos]. cbn [CoordSpec.reference] in HX'. rewrite (pose_fun F add mul s n _ HW _ HX').
      assert (orth (rot F W)) as [OW _] by (rewrite EW; osolve). f_equal.
      * rewrite <- !mul_assoc, OW, (mm_1r _ _ _ _ _ _ _ rth), ER, <- mul_assoc. reflexivity.
      * rewrite EW. reflexivity.
    + exists s'. split; [|exact A']. exists f0. intros f Hf. unfold CoordModel.rotate_with_matrix. rewrite Hd, Ew, <- Ad. apply R'. exact Hf.
  - destruct (Last s (args s g) D0 Og) as (s' & (f0 & R') & A').
    + cbn [CoordSpec.reference] in HX'. unfold T. rewrite (mother_fun s n P Y HP HX'). cbn [rot]. rewrite ER, <- !mul_assoc, (mul_assoc (mt (rot F P)) (rot F P)).
      destruct OP as [-> _]. rewrite (mm_1l _ _ _ _ _ _ _ rth). reflexivity.
    + exists s'. split; [|exact A']. exists f0. intros f Hf. unfold CoordModel.rotate_with_matrix. rewrite Hd, Ew, <- Ad. apply R'. exact Hf.
  - destruct (during_parent F zero one add mul bad s n s none P HF D0 HP I L) as (s1 & pc & (f1 & R1) & C1 & D1 & M1 & K1).
    assert (args s1 = args s) as Ea by exact (c_args _ _ _ C1).
    set (s2 := set_arg F s1 g (mm (args s1 g) (rot F (mem s1 pc)))). set (s3 := set_arg F s2 g (mm (mt (rot F (mem s2 pc))) (args s2 g))).
    assert (args s3 g = mm (mt (rot F P)) (mm (args s g) (rot F P))) as E3.
    { unfold s3, s2. cbn [set_arg CoordModel.args CoordModel.mem]. unfold upd. rewrite !Nat.eqb_refl, M1, Ea. reflexivity. }
    assert (during none s n s3) as D3 by (apply during_arg; [exact HF|]; apply during_arg; [exact HF|exact D1]).
    destruct (Last s3 (args s3 g) D3) as (s' & (f0 & R') & A').
    + rewrite E3. osolve.
    + rewrite E3. unfold T. cbn [rot]. cbn [CoordSpec.reference] in HX'. subst Y. cbn [rot unit_coords]. rewrite ER, !mul_assoc. destruct OP as [_ ->]. rewrite (mm_1l _ _ _ _ _ _ _ rth).
      f_equal. f_equal. symmetry. exact (mm_1r _ _ _ _ _ _ _ rth (args s g)).
    + exists s'. split; [|exact A']. exists (max f0 f1). intros f Hf. unfold CoordModel.rotate_with_matrix. rewrite Hd, Ew, <- Ad, (R1 f) by lia. apply R'. lia.
  - destruct Hx as [-> Nx]. apply Oth; cbn; auto.
  - subst w. apply Oth; cbn; auto.
Qed.
Theorem orient_ok s n mat w W Y : Inv s -> rigid s -> live s n -> orth mat -> usable s n w -> pose s n W -> reference s n w Y ->
  exists s', runs (fun f => orient_with_matrix F add mul bad f s n mat w) s' /\ arrives s n s' (C F (mm (rot F Y) mat) (pos F W)).
Proof.
  intros I R L Og Us HW HY. start s n w W Y R I L HW HY Us d P. set (T := C F _ _). set (l := addr s n) in *.
  assert (forall si r, during none s n si -> orth r -> mm (rot F P) r = rot F T ->
    exists s', runs (fun f => newcoords f (set_rot F si l r) n l) s' /\ arrives s n s' T) as Last.
  { intros si r D Or Er. assert (mem si l = local s n) as El.
    { destruct (d_shape _ _ _ _ _ _ _ _ _ D n) as (_ & _ & Ea & _). unfold l. rewrite <- Ea. apply (d_loc _ _ _ _ _ _ _ _ _ D); [exact L|intros []]. }
    set (s2 := put si l (C F r (pos F (mem si l)))).
    assert (mem s2 l = C F r (pos F (local s n))) as E2 by (unfold s2; rewrite mem_put, Nat.eqb_refl, El; reflexivity).
    destruct (done F zero one add mul sub neg rth s n s2 (self n) l T P s2) as (s' & R' & A' & _); auto.
    - apply (during_put F zero one add mul s n si none); [intros m []|exact L|exact D].
    - rewrite E2. exact Or.
    - rewrite E2. unfold CoordModel.tc. cbn [rot pos]. rewrite Er. unfold T. cbn [rot pos]. f_equal. rewrite EW. reflexivity.
    - exists s'. auto. }
  assert (forall Z, mm (rot F P) (mm (mt (rot F P)) Z) = Z) as Can.
  { intros Z. rewrite mul_assoc. destruct OP as [_ ->]. apply (mm_1l _ _ _ _ _ _ _ rth). }
  assert (other (near_wrt n d w) -> near_wrt n d w = w -> exists s', runs (fun f => orient_with_matrix F add mul bad f s n mat w) s' /\ arrives s n s' T) as Oth.
  { intros Ho Ew. rewrite Ew in Ho.
    destruct (during_parent F zero one add mul bad s n s none P HF D0 HP I L) as (s1 & pc & (f1 & R1) & C1 & D1 & M1 & K1).
    destruct (other_wrt s n s1 w Y D1 HY Us Ho I L) as (s2 & x & (f2 & R2) & C2 & D2 & M2 & K2).
    destruct (during_kept F zero one add mul _ s n s1 s2 pc D1 C2 K1) as [_ Mp2].
    destruct (Last s2 (mm (mt (rot F P)) (mm (rot F Y) mat)) D2) as (s' & (f0 & R') & A').
    - osolve.
    - apply Can.
    - exists s'. split; [|exact A']. exists (max f0 (max f1 f2)). intros f Hf. unfold CoordModel.orient_with_matrix. rewrite Hd, Ew, <- Ad.
      destruct w as [| | |x'|x']; try contradiction; rewrite (R1 f) by lia; rewrite (R2 f) by lia; rewrite M2, Mp2, M1; apply R'; lia. }
  destruct (near_wrt n d w) as [| | |x|x] eqn:Ew.
  - destruct (Last s (mm (rot F (local s n)) mat) D0) as (s' & (f0 & R') & A').
    + osolve.
    + unfold T. cbn [rot]. cbn [CoordSpec.reference] in HX'. rewrite (pose_fun F add mul s n _ HW _ HX'), EW. apply mul_assoc.
    + exists s'. split; [|exact A']. exists f0. intros f Hf. unfold CoordModel.orient_with_matrix. rewrite Hd, Ew, <- Ad. apply R'. exact Hf.
  - destruct (Last s mat D0 Og) as (s' & (f0 & R') & A').
    + cbn [CoordSpec.reference] in HX'. unfold T. rewrite (mother_fun s n P Y HP HX'). reflexivity.
    + exists s'. split; [|exact A']. exists f0. intros f Hf. unfold CoordModel.orient_with_matrix. rewrite Hd, Ew, <- Ad. apply R'. exact Hf.
  - destruct (during_parent F zero one add mul bad s n s none P HF D0 HP I L) as (s1 & pc & (f1 & R1) & C1 & D1 & M1 & K1).
    destruct (Last s1 (mm (mt (rot F P)) mat) D1) as (s' & (f0 & R') & A').
    + osolve.
    + rewrite Can. unfold T. cbn [rot]. cbn [CoordSpec.reference] in HX'. subst Y. symmetry. apply (mm_1l _ _ _ _ _ _ _ rth).
    + exists s'. split; [|exact A']. exists (max f0 f1). intros f Hf. unfold CoordModel.orient_with_matrix. rewrite Hd, Ew, <- Ad, (R1 f) by lia. rewrite M1. apply R'. lia.
  - destruct Hx as [-> Nx]. apply Oth; cbn; auto.
  - subst w. apply Oth; cbn; auto.
Qed.
End More.
