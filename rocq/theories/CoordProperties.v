(** C88: cascaded coordinates.  For every commutative ring of numbers, every tree of frames and every sequence of operations. *)
From Coq Require Import List Arith Bool Lia Ring ZArith.
From Verif Require Import CoordModel CoordSpec CoordProofs CoordProofs2 CoordProofs3 CoordProofs4 CoordProofs5 CoordProofs6 CoordProofs7 CoordProofs8.
Import ListNotations.

Section Prop88.
Variables (F : Type) (zero one : F) (add mul sub : F -> F -> F) (neg : F -> F).
Hypothesis rth : ring_theory zero one add mul sub neg (@eq F).
Variable bad : coords F -> coords F.
Notation st := (st F). Notation tc := (tc F add mul). Notation inv := (inv F add mul neg). Notation U := (unit_coords F zero one).
Notation pose := (pose add mul). Notation mem := (mem F). Notation next := (next F). Notation args := (args F).
Notation orth := (orth zero one add mul). Notation reference := (reference zero one add mul). Notation usable := (usable zero one add mul).
Notation history := (history zero one add mul neg bad). Notation step := (step zero one add mul neg bad). Notation arrived := (arrived add mul).
Notation at_rest := (at_rest add mul). Notation transform_vector := (transform_vector F add mul).
Notation mm := (mm F add mul). Notation mv := (mv F add mul). Notation mt := (mt F). Notation va := (va F add).
Implicit Types (s : st) (n m p c a g : nat) (w : wrt) (W Y : coords F).

(** every frame has one place, a rigid one *)
Theorem C88_place s n : history s -> live s n -> exists W, pose s n W /\ orth (rot F W) /\ forall W', pose s n W' -> W' = W.
Proof.
  intros H L. destruct (history_ok F zero one add mul sub neg rth bad s H) as [I R]. destruct (pose_have F zero one add mul s n I L) as (W & HW). exists W. split; [exact HW|].
  split; [exact (pose_orth F zero one add mul sub neg rth s n W R HW)|]. intros W' HW'. exact (pose_fun F add mul s n W HW W' HW').
Qed.
(** :worldcoords answers with that place, whatever has been remembered and whatever has been moved since *)
Theorem C88_world s n W : history s -> pose s n W ->
  exists s' a, runs (fun f => worldcoords F add mul bad f s n) (s', a) /\ mem s' a = W /\ history s' /\ at_rest s s' /\ forall m, par s' m = par s m.
Proof.
  intros H HW. destruct (history_ok F zero one add mul sub neg rth bad s H) as [I R]. pose proof (pose_live F add mul s n W HW) as L.
  destruct (world_place F zero one add mul bad s n W I HW) as (s' & R1 & St & Re & E). exists s', (cache s n). split; [exact R1|]. split; [exact E|].
  split; [exact (h_step zero one add mul neg bad s s' H (step_world zero one add mul neg bad s n s' _ L R1))|]. split; [exact Re|]. apply St.
Qed.
(** points go through the frames one after another, and back *)
Theorem C88_points s n p W P v : history s -> pose s n W -> par s n = Some p -> pose s p P ->
  transform_vector W v = transform_vector P (transform_vector (local s n) v) /\
  inverse_transform_vector F add mul neg W (transform_vector W v) = v /\ transform_vector W (inverse_transform_vector F add mul neg W v) = v.
Proof.
  intros H HW E HP. destruct (history_ok F zero one add mul sub neg rth bad s H) as [I R]. pose proof (pose_orth F zero one add mul sub neg rth s n W R HW) as O. split; [|destruct (transform_inv F zero one add mul sub neg rth W v O); split; assumption].
  destruct HW as [n L En|n q Q L En HQ]; [congruence|]. assert (q = p) as -> by congruence. rewrite <- (pose_fun F add mul s p Q HQ P HP). apply (transform_tc F zero one add mul sub neg rth).
Qed.
(** what hangs on a frame that moves keeps its place as seen from there; everything else keeps its place in the world *)
Theorem C88_follow s s' n W W' m T : history s -> arrived s s' n W' -> pose s n W -> pose s m T ->
  (above s n m -> pose s' m (tc W' (tc (inv W) T))) /\ (~ above s n m -> pose s' m T).
Proof.
  intros H [Mv HW'] HW HT. destruct (history_ok F zero one add mul sub neg rth bad s H) as [I R]. exact (follow F zero one add mul sub neg rth s s' n _ W W' I R Mv HW HW' m T HT).
Qed.

Ltac enter H := match type of H with history ?s => destruct (history_ok F zero one add mul sub neg rth bad s H) as [I R] end.
Ltac conclude s' A := exists s'; split; [assumption|]; split; [|split; [apply A|apply A]]; match goal with H : history ?s |- _ => apply (h_step zero one add mul neg bad s s' H) end.
(** :transform *)
Theorem C88_transform_partial s n c w W Y : history s -> kept s n c -> orth (rot F (mem s c)) -> usable s n w -> apart s n w -> pose s n W -> reference s n w Y ->
  exists s', runs (fun f => transform F add mul neg bad f s n c w) s' /\ history s' /\ arrived s s' n (seen_from add mul neg Y (mem s c) W).
Proof.
  intros H Kc Oc Us Ap HW HY. enter H. pose proof (pose_live F add mul s n W HW) as L.
  destruct (transform_ok F zero one add mul sub neg rth bad s n c w W Y I R L Kc Oc Us Ap HW HY) as (s' & R1 & A). conclude s' A. apply (step_transform zero one add mul neg bad s n c w); assumption.
Qed.
(** :move-to *)
Theorem C88_move_to_partial s n c w W Y : history s -> kept s n c -> (shares s n w -> free s c) -> orth (rot F (mem s c)) -> usable s n w -> pose s n W -> reference s n w Y ->
  exists s', runs (fun f => move_to F add mul neg bad f s n c w) s' /\ history s' /\ arrived s s' n (tc Y (mem s c)).
Proof.
  intros H Kc Sh Oc Us HW HY. enter H. pose proof (pose_live F add mul s n W HW) as L.
  destruct (move_to_ok F zero one add mul sub neg rth bad s n c w W Y I R L Kc Sh Oc Us HW HY) as (s' & R1 & A). conclude s' A. apply (step_move_to zero one add mul neg bad s n c w); assumption.
Qed.
(** :translate *)
Theorem C88_translate s n v w W Y : history s -> usable s n w -> pose s n W -> reference s n w Y ->
  exists s', runs (fun f => translate F add mul bad f s n v w) s' /\ history s' /\ arrived s s' n (C F (rot F W) (va (pos F W) (mv (rot F Y) v))).
Proof.
  intros H Us HW HY. enter H. pose proof (pose_live F add mul s n W HW) as L.
  destruct (translate_ok F zero one add mul sub neg rth bad s n v w W Y I R L Us HW HY) as (s' & R1 & A). conclude s' A. apply (step_translate zero one add mul neg bad s n v w); assumption.
Qed.
(** :locate *)
Theorem C88_locate s n v w W Y : history s -> usable s n w -> pose s n W -> reference s n w Y ->
  exists s', runs (fun f => locate F add mul neg bad f s n v w) s' /\ history s' /\ arrived s s' n (C F (rot F W) (transform_vector Y v)).
Proof.
  intros H Us HW HY. enter H. pose proof (pose_live F add mul s n W HW) as L.
  destruct (locate_ok F zero one add mul sub neg rth bad s n v w W Y I R L Us HW HY) as (s' & R1 & A). conclude s' A. apply (step_locate zero one add mul neg bad s n v w); assumption.
Qed.
(** :rotate-with-matrix *)
Theorem C88_rotate s n g w W Y : history s -> orth (args s g) -> usable s n w -> pose s n W -> reference s n w Y ->
  exists s', runs (fun f => rotate_with_matrix F add mul bad f s n g w) s' /\ history s' /\
    arrived s s' n (C F (mm (mm (rot F Y) (mm (args s g) (mt (rot F Y)))) (rot F W)) (pos F W)).
Proof.
  intros H Og Us HW HY. enter H. pose proof (pose_live F add mul s n W HW) as L.
  destruct (rotate_ok F zero one add mul sub neg rth bad s n g w W Y I R L Og Us HW HY) as (s' & R1 & A). conclude s' A. apply (step_rotate zero one add mul neg bad s n g w); assumption.
Qed.
(** :orient-with-matrix *)
Theorem C88_orient s n (q : mtx F) w W Y : history s -> orth q -> usable s n w -> pose s n W -> reference s n w Y ->
  exists s', runs (fun f => orient_with_matrix F add mul bad f s n q w) s' /\ history s' /\ arrived s s' n (C F (mm (rot F Y) q) (pos F W)).
Proof.
  intros H Oq Us HW HY. enter H. pose proof (pose_live F add mul s n W HW) as L.
  destruct (orient_ok F zero one add mul sub neg rth bad s n q w W Y I R L Oq Us HW HY) as (s' & R1 & A). conclude s' A. apply (step_orient zero one add mul neg bad s n q w); assumption.
Qed.
(** :transformation finds the change that brings one frame to where another is, and :transform makes it *)
Theorem C88_transformation s n m w W1 W2 Y : history s -> usable s n w -> pose s n W1 -> pose s m W2 -> reference s n w Y ->
  exists s' a, runs (fun f => transformation F add mul neg bad f s n m w) (s', a) /\ history s' /\ at_rest s s' /\ next s <= a < next s' /\
    seen_from add mul neg Y (mem s' a) W1 = W2.
Proof.
  intros H Us H1 H2 HY. enter H. pose proof (pose_live F add mul s n W1 H1) as L1. pose proof (pose_live F add mul s m W2 H2) as L2.
  destruct (transformation_ok F zero one add mul sub neg rth bad s n m w W1 W2 Y I R L1 Us H1 H2 HY) as (s' & a & R1 & St & Ha & E). exists s', a. split; [exact R1|].
  split; [exact (h_step zero one add mul neg bad s s' H (step_transformation zero one add mul neg bad s n m w s' a L1 L2 Us R1))|]. split; [|split; [exact Ha|exact E]].
  destruct St as (I' & A1 & A2 & A3). apply (rest F zero one add mul); auto. intros x T. apply (pose_same F add mul s s'); auto.
Qed.
(** :assoc without coordinates and :dissoc change who hangs on whom, and no place *)
Theorem C88_assoc_partial s p c : history s -> live s p -> live s c -> ~ above s c p ->
  exists s', runs (fun f => assoc F add mul neg bad f s p c None) s' /\ history s' /\ at_rest s s' /\ forall m, par s' m = if m =? c then Some p else par s m.
Proof.
  intros H Lp Lc Na. enter H. destruct (assoc_ok F zero one add mul sub neg rth bad s p c I R Lp Lc Na) as (s' & R1 & I' & R' & Re & Pa). exists s'. split; [exact R1|].
  split; [exact (h_step zero one add mul neg bad s s' H (step_assoc zero one add mul neg bad s p c s' Lp Lc Na R1))|]. auto.
Qed.
Theorem C88_dissoc s p c : history s -> live s p -> live s c ->
  exists s', runs (fun f => dissoc F add mul bad f s p c) s' /\ history s' /\ at_rest s s' /\ (forall m, m <> c -> par s' m = par s m) /\ (par s c = Some p -> par s' c = None) /\
    (par s c <> Some p -> par s' c = par s c).
Proof.
  intros H Lp Lc. enter H. destruct (dissoc_ok F zero one add mul sub neg rth bad s p c I Lp Lc) as (s' & R1 & I' & R' & Re & Pa & _). exists s'. split; [exact R1|].
  split; [exact (h_step zero one add mul neg bad s s' H (step_dissoc zero one add mul neg bad s p c s' Lp Lc R1))|]. split; [exact Re|]. unfold CoordProofs7.left in Pa.
  split; [intros m Hm; rewrite Pa; destruct (Nat.eqb_spec m c); [contradiction|reflexivity]|]. rewrite Pa, Nat.eqb_refl. split.
  - intros ->. rewrite Nat.eqb_refl. reflexivity.
  - intros Np. destruct (par s c) as [q|]; [|reflexivity]. destruct (Nat.eqb_spec q p); [congruence|reflexivity].
Qed.
Theorem C88_clear_assoc s p : history s -> live s p ->
  exists s', runs (fun f => clear_assoc F add mul bad f s p) s' /\ history s' /\ at_rest s s' /\ (forall m, par s m = Some p -> par s' m = None) /\
    (forall m, par s m <> Some p -> par s' m = par s m).
Proof.
  intros H Lp. enter H. destruct (clear_ok F zero one add mul sub neg rth bad s p I Lp) as (s' & R1 & I' & R' & Re & Pa). exists s'. split; [exact R1|].
  split; [exact (h_step zero one add mul neg bad s s' H (step_clear zero one add mul neg bad s p s' Lp R1))|]. split; [exact Re|]. split; intros m Hm; rewrite Pa.
  - rewrite Hm, Nat.eqb_refl. reflexivity.
  - destruct (par s m) as [q|]; [|reflexivity]. destruct (Nat.eqb_spec q p); [congruence|reflexivity].
Qed.
(** :assoc with coordinates puts the frame there, as seen from its new mother *)
Theorem C88_assoc_at_partial s p c a V : history s -> live s c -> ~ above s c p -> par s c <> Some p -> free s a -> orth (rot F (mem s a)) -> pose s p V ->
  exists s', runs (fun f => assoc F add mul neg bad f s p c (Some a)) s' /\ history s' /\ pose s' c (tc V (mem s a)) /\
    (forall m, par s' m = if m =? c then Some p else par s m) /\ (forall m T, ~ above s c m -> pose s m T -> pose s' m T) /\ forall m, m <> c -> live s m -> local s' m = local s m.
Proof.
  intros H Lc Na Np Fa Oa HV. enter H. pose proof (pose_live F add mul s p V HV) as Lp.
  destruct (assoc_at_ok F zero one add mul sub neg rth bad s p c a V I R Lp Lc Na Np Fa Oa HV) as (s' & R1 & I' & R' & Lv & Pa & Pc & Po & Lo). exists s'. split; [exact R1|].
  split; [exact (h_step zero one add mul neg bad s s' H (step_assoc_at zero one add mul neg bad s p c a s' Lp Lc Na Np Fa Oa R1))|]. auto.
Qed.
(** a new frame *)
Theorem C88_create s n v : history s -> ~ live s n -> orth (rot F v) ->
  history (create F s n v) /\ pose (create F s n v) n v /\ par (create F s n v) n = None /\ forall m T, pose s m T -> pose (create F s n v) m T.
Proof.
  intros H Ln O. enter H. destruct (create_ok F zero one add mul bad s n v I Ln) as (I' & R' & L' & P' & Q' & S').
  split; [exact (h_step zero one add mul neg bad s _ H (step_create zero one add mul neg bad s n v Ln O))|]. split; [exact P'|]. split; [|exact S']. rewrite Q'.
  unfold par. unfold live in Ln. destruct (nodes F s n); [exfalso; apply Ln; discriminate|reflexivity].
Qed.
End Prop88.
Print Assumptions C88_place. Print Assumptions C88_world. Print Assumptions C88_points. Print Assumptions C88_follow.
Print Assumptions C88_transform_partial. Print Assumptions C88_move_to_partial. Print Assumptions C88_translate. Print Assumptions C88_locate.
Print Assumptions C88_rotate. Print Assumptions C88_orient. Print Assumptions C88_transformation. Print Assumptions C88_assoc_partial.
Print Assumptions C88_dissoc. Print Assumptions C88_clear_assoc. Print Assumptions C88_assoc_at_partial. Print Assumptions C88_create.

(** ** Concrete frames, with whole numbers and quarter turns *)
Module Ex.
Open Scope Z_scope.
Definition zth : ring_theory 0 1 Z.add Z.mul Z.sub Z.opp (@eq Z) := Zth.
Definition same (c : coords Z) := c.
Notation zst := (st Z).
Notation hist := (history 0 1 Z.add Z.mul Z.opp same).
Notation stp := (step 0 1 Z.add Z.mul Z.opp same).
Notation zpose := (pose Z.add Z.mul).
Notation zorth := (orth 0 1 Z.add Z.mul).
Definition one3 : mtx Z := m1 Z 0 1.
Definition at_ (x y z : Z) : coords Z := C Z one3 (V Z x y z).
(** a quarter turn about the z axis, and one about the x axis *)
Definition quarter : mtx Z := M Z 0 (-1) 0 1 0 0 0 0 1.
Definition quarter_x : mtx Z := M Z 1 0 0 0 0 (-1) 0 1 0.
Close Scope Z_scope.
Definition start : zst := St Z (fun _ => None) (fun _ => unit_coords Z 0%Z 1%Z) 1 (fun _ => quarter).
Notation zassoc := (assoc Z Z.add Z.mul Z.opp same).
Notation zworld := (worldcoords Z Z.add Z.mul same).
Ltac go := match goal with |- runs ?op _ => eapply (lasts_runs op 6) end; [first [apply l_world | apply l_assoc | apply l_transform | apply l_move_to | apply l_translate | apply l_rotate]|reflexivity].
Ltac orth_ := split; reflexivity.
Ltac cases := intros [|[|[|[|[|m]]]]] L; try (exfalso; apply L; reflexivity); cbn; try (split; lia); try lia; auto.

(** three frames, and three objects at 7, 8 and 9 *)
Definition s1 := create Z start 1 (C Z quarter (V Z 0 0 0)%Z).
Definition s2 := create Z s1 2 (at_ 0 3 0).
Definition s3 := create Z s2 3 (at_ 0 0 0).
Definition s4 := snd (new Z s3 (at_ 2 0 0)).
Definition s5 := snd (new Z s4 (at_ 0 5 0)).
Definition s6 := snd (new Z s5 (at_ 1 0 0)).
Lemma h6 : hist s6.
Proof.
  repeat (eapply h_step; [|constructor]); try orth_; try (intros H; apply H; reflexivity). apply h_start.
Qed.
(** 2 hangs on 1 and 3 on 2 *)
Definition s7 := got (zassoc 6 s6 1 2 (Some 7)) s6.
Definition s8 := got (zassoc 6 s7 2 3 (Some 8)) s7.
Lemma r7 : runs (fun f => zassoc f s6 1 2 (Some 7)) s7. Proof. go. Qed.
Lemma r8 : runs (fun f => zassoc f s7 2 3 (Some 8)) s8. Proof. go. Qed.
Ltac liv := let H := fresh in intros H; discriminate H.
Lemma root_above (s : zst) n m : par s m = None -> above s n m -> n = m.
Proof. intros P H. inversion H as [|x p E _]; subst; [reflexivity|congruence]. Qed.
Lemma child_above (s : zst) n m p : par s m = Some p -> above s n m -> n = m \/ above s n p.
Proof. intros P H. inversion H as [|x q E A]; subst; [auto|]. right. assert (q = p) as <- by congruence. exact A. Qed.
Lemma h7 : hist s7.
Proof.
  eapply h_step; [exact h6|]. apply (step_assoc_at _ _ _ _ _ _ _ 1 2 7); try liv; [| |orth_|exact r7].
  - intros H. apply root_above in H; [discriminate|reflexivity].
  - split; [cbn; lia|]. cases.
Qed.
Lemma h8 : hist s8.
Proof.
  eapply h_step; [exact h7|]. apply (step_assoc_at _ _ _ _ _ _ _ 2 3 8); try liv; [| |orth_|exact r8].
  - intros H. apply (child_above s7 3 2 1 eq_refl) in H. destruct H as [H|H]; [discriminate|]. apply root_above in H; [discriminate|reflexivity].
  - split; [cbn; lia|]. cases.
Qed.
(** 3 is at (2 0 0) + (0 5 0) as seen from 1, which is turned *)
Definition w1 : coords Z := C Z quarter (V Z 0 0 0)%Z.
Definition w2 : coords Z := C Z quarter (V Z 0 2 0)%Z.
Definition w3 : coords Z := C Z quarter (V Z (-5) 2 0)%Z.
Lemma p1 : zpose s8 1 w1. Proof. apply (pose_root Z.add Z.mul s8 1); [liv|reflexivity]. Qed.
Lemma p2 : zpose s8 2 w2. Proof. apply (pose_child Z.add Z.mul s8 2 1 w1); [liv|reflexivity|exact p1]. Qed.
Lemma p3 : zpose s8 3 w3. Proof. apply (pose_child Z.add Z.mul s8 3 2 w2); [liv|reflexivity|exact p2]. Qed.

(** the theorems used on them *)
Example ex_place : live s8 3 /\ zorth (rot Z w3). Proof. split; [liv|orth_]. Qed.
Example ex_world : exists s' a, runs (fun f => zworld f s8 3) (s', a) /\ mem Z s' a = w3.
Proof. destruct (C88_world Z 0%Z 1%Z Z.add Z.mul Z.sub Z.opp zth same s8 3 w3 h8 p3) as (s' & a & R & E & _). exists s', a. auto. Qed.
Example ex_points : transform_vector Z Z.add Z.mul w3 (V Z 1 2 3)%Z = (V Z (-7) 3 3)%Z. Proof. reflexivity. Qed.
Example ex_translate : exists s', runs (fun f => translate Z Z.add Z.mul same f s8 2 (V Z 1 0 0)%Z Local) s' /\ zpose s' 2 (C Z quarter (V Z 0 3 0)%Z) /\ zpose s' 3 (C Z quarter (V Z (-5) 3 0)%Z) /\ zpose s' 1 w1.
Proof.
  destruct (C88_translate Z 0%Z 1%Z Z.add Z.mul Z.sub Z.opp zth same s8 2 (V Z 1 0 0)%Z Local w2 w2 h8 I p2 p2) as (s' & R & H & A). exists s'. split; [exact R|]. split; [apply A|].
  split.
  - apply (C88_follow Z 0%Z 1%Z Z.add Z.mul Z.sub Z.opp zth same s8 s' 2 w2 _ 3 w3 h8 A p2 p3). apply above_step with 2; [reflexivity|constructor].
  - apply (C88_follow Z 0%Z 1%Z Z.add Z.mul Z.sub Z.opp zth same s8 s' 2 w2 _ 1 w1 h8 A p2 p1). intros H1. apply root_above in H1; [discriminate|reflexivity].
Qed.
Example ex_locate : exists s', runs (fun f => locate Z Z.add Z.mul Z.opp same f s8 3 (V Z 1 1 1)%Z (Frame 1)) s' /\ zpose s' 3 (C Z quarter (V Z (-1) 1 1)%Z).
Proof.
  destruct (C88_locate Z 0%Z 1%Z Z.add Z.mul Z.sub Z.opp zth same s8 3 (V Z 1 1 1)%Z (Frame 1) w3 w1 h8) as (s' & R & H & A); [liv|exact p3|exact p1|]. exists s'. split; [exact R|apply A].
Qed.
Example ex_rotate : exists s', runs (fun f => rotate_with_matrix Z Z.add Z.mul same f s8 2 0 World) s' /\ zpose s' 2 (C Z (M Z (-1) 0 0 0 (-1) 0 0 0 1)%Z (V Z 0 2 0)%Z).
Proof.
  destruct (C88_rotate Z 0%Z 1%Z Z.add Z.mul Z.sub Z.opp zth same s8 2 0 World w2 (unit_coords Z 0%Z 1%Z) h8) as (s' & R & H & A); [orth_|exact I|exact p2|reflexivity|]. exists s'. split; [exact R|apply A].
Qed.
Example ex_orient : exists s', runs (fun f => orient_with_matrix Z Z.add Z.mul same f s8 3 quarter_x World) s' /\ zpose s' 3 (C Z quarter_x (V Z (-5) 2 0)%Z).
Proof.
  destruct (C88_orient Z 0%Z 1%Z Z.add Z.mul Z.sub Z.opp zth same s8 3 quarter_x World w3 (unit_coords Z 0%Z 1%Z) h8) as (s' & R & H & A); [orth_|exact I|exact p3|reflexivity|]. exists s'. split; [exact R|apply A].
Qed.
Lemma kept9 n : kept s8 n 9.
Proof. split; [cbn; lia|]. split; [destruct n as [|[|[|[|n]]]]; vm_compute; lia|]. intros [|[|[|[|m]]]] L; try (exfalso; apply L; reflexivity); vm_compute; lia. Qed.
Example ex_transform : exists s', runs (fun f => transform Z Z.add Z.mul Z.opp same f s8 2 9 (Frame 1)) s' /\ zpose s' 2 (C Z quarter (V Z 0 3 0)%Z).
Proof.
  destruct (C88_transform_partial Z 0%Z 1%Z Z.add Z.mul Z.sub Z.opp zth same s8 2 9 (Frame 1) w2 w1 h8 (kept9 2)) as (s' & R & H & A); [orth_|liv| |exact p2|exact p1|exists s'; split; [exact R|apply A]].
  right. right. intros Hx. apply root_above in Hx; [discriminate|reflexivity].
Qed.
Example ex_move_to : exists s', runs (fun f => move_to Z Z.add Z.mul Z.opp same f s8 3 9 World) s' /\ zpose s' 3 (at_ 1 0 0).
Proof.
  destruct (C88_move_to_partial Z 0%Z 1%Z Z.add Z.mul Z.sub Z.opp zth same s8 3 9 World w3 (unit_coords Z 0%Z 1%Z) h8 (kept9 3)) as (s' & R & H & A); [intros []|orth_|exact I|exact p3|reflexivity|exists s'; split; [exact R|apply A]].
Qed.
Example ex_transformation : exists s' a, runs (fun f => transformation Z Z.add Z.mul Z.opp same f s8 2 3 Local) (s', a) /\ seen_from Z.add Z.mul Z.opp w2 (mem Z s' a) w2 = w3.
Proof.
  destruct (C88_transformation Z 0%Z 1%Z Z.add Z.mul Z.sub Z.opp zth same s8 2 3 Local w2 w3 w2 h8 I p2 p3 p2) as (s' & a & R & _ & _ & _ & E). exists s', a. auto.
Qed.
Example ex_assoc : exists s', runs (fun f => zassoc f s8 1 3 None) s' /\ zpose s' 3 w3 /\ par s' 3 = Some 1.
Proof.
  destruct (C88_assoc_partial Z 0%Z 1%Z Z.add Z.mul Z.sub Z.opp zth same s8 1 3 h8) as (s' & R & H & A & P); [liv|liv|intros H; apply root_above in H; [discriminate|reflexivity]|].
  exists s'. split; [exact R|]. split; [apply A; exact p3|rewrite P; reflexivity].
Qed.
Example ex_assoc_at : exists s', runs (fun f => zassoc f s8 1 3 (Some 9)) s' /\ zpose s' 3 (C Z quarter (V Z 0 1 0)%Z).
Proof.
  destruct (C88_assoc_at_partial Z 0%Z 1%Z Z.add Z.mul Z.sub Z.opp zth same s8 1 3 9 w1 h8) as (s' & R & H & A & P); [liv|intros H; apply root_above in H; [discriminate|reflexivity]|discriminate| |orth_|exact p1|exists s'; auto].
  split; [cbn; lia|]. intros [|[|[|[|m]]]] L; try (exfalso; apply L; reflexivity); vm_compute; lia.
Qed.
Example ex_dissoc : exists s', runs (fun f => dissoc Z Z.add Z.mul same f s8 2 3) s' /\ zpose s' 3 w3 /\ par s' 3 = None.
Proof.
  destruct (C88_dissoc Z 0%Z 1%Z Z.add Z.mul Z.sub Z.opp zth same s8 2 3 h8) as (s' & R & H & A & _ & P & _); [liv|liv|]. exists s'. split; [exact R|]. split; [apply A; exact p3|apply P; reflexivity].
Qed.
Example ex_clear : exists s', runs (fun f => clear_assoc Z Z.add Z.mul same f s8 1) s' /\ zpose s' 3 w3 /\ par s' 2 = None.
Proof.
  destruct (C88_clear_assoc Z 0%Z 1%Z Z.add Z.mul Z.sub Z.opp zth same s8 1 h8) as (s' & R & H & A & P & _); [liv|]. exists s'. split; [exact R|]. split; [apply A; exact p3|apply P; reflexivity].
Qed.
Example ex_create : hist (create Z s8 4 w2) /\ zpose (create Z s8 4 w2) 4 w2.
Proof.
  destruct (C88_create Z 0%Z 1%Z Z.add Z.mul Z.sub Z.opp zth same s8 4 w2 h8) as (H & P & _); [intros L; apply L; reflexivity|orth_|auto].
Qed.
End Ex.
Import Ex.

(** ** What does not hold *)
(** :transform with respect to a frame that hangs on the one that moves, and whose place has not been looked up since: the place is looked up in
    the middle of the work, when the rotation and position of [n] are not those relative to its mother *)
Theorem C88_transform_refuted : exists s n c w W Y s' W', hist s /\ kept s n c /\ zorth (rot Z (mem Z s c)) /\ usable 0%Z 1%Z Z.add Z.mul s n w /\
  zpose s n W /\ reference 0%Z 1%Z Z.add Z.mul s n w Y /\ runs (fun f => transform Z Z.add Z.mul Z.opp same f s n c w) s' /\ zpose s' n W' /\
  W' <> seen_from Z.add Z.mul Z.opp Y (mem Z s c) W.
Proof.
  set (s' := got (transform Z Z.add Z.mul Z.opp same 6 s8 2 9 (Frame 3)) s8).
  exists s8, 2, 9, (Frame 3), w2, w3, s', (tc Z Z.add Z.mul w1 (local s' 2)). split; [exact h8|]. split; [exact (kept9 2)|]. split; [orth_|]. split; [liv|]. split; [exact p2|]. split; [exact p3|].
  split; [go|]. split.
  - apply (pose_child Z.add Z.mul s' 2 1 w1); [liv|reflexivity|]. apply (pose_root Z.add Z.mul s' 1); [liv|reflexivity].
  - intros E. vm_compute in E. discriminate E.
Qed.
Print Assumptions C88_transform_refuted.
(** :replace-coords of a cascaded-coords: the change is not announced, :worldcoords answers with the old place *)
Theorem C88_replace_refuted : exists s n c s' W s'' a, hist s /\ live s n /\ free s c /\ zorth (rot Z (mem Z s c)) /\ replace_coords Z s n c = Some s' /\ zpose s' n W /\
  runs (fun f => zworld f s' n) (s'', a) /\ mem Z s'' a <> W.
Proof.
  set (t := fst (got (zworld 6 s6 2) (s6, 0))). set (s' := got (replace_coords Z t 2 9) t).
  exists t, 2, 9, s', (at_ 1 0 0), (fst (got (zworld 6 s' 2) (s', 0))), (snd (got (zworld 6 s' 2) (s', 0))). split; [|split; [liv|split; [|split; [orth_|split; [reflexivity|split; [|split]]]]]].
  - eapply h_step; [exact h6|]. apply (step_world _ _ _ _ _ _ _ 2 t (snd (got (zworld 6 s6 2) (s6, 0)))); [liv|]. unfold t. rewrite <- surjective_pairing. go.
  - split; [cbn; lia|]. intros [|[|[|[|m]]]] L; try (exfalso; apply L; reflexivity); vm_compute; lia.
  - apply (pose_root Z.add Z.mul s' 2); [liv|reflexivity].
  - rewrite <- surjective_pairing. go.
  - intros E. vm_compute in E. discriminate E.
Qed.
Print Assumptions C88_replace_refuted.
(** :assoc of a frame with one above it is accepted, and then :worldcoords does not end *)
Theorem C88_assoc_refuted : exists s p c s', hist s /\ live s p /\ live s c /\ runs (fun f => zassoc f s p c None) s' /\ forall f, zworld f s' c = None.
Proof.
  set (s' := got (zassoc 6 s8 3 1 None) s8). exists s8, 3, 1, s'. split; [exact h8|]. split; [liv|]. split; [liv|]. split; [go|].
  assert (forall f, zworld f s' 1 = None /\ zworld f s' 2 = None /\ zworld f s' 3 = None) as H; [|intros f; apply H].
  assert (exists a b l, nodes Z s' 1 = Some (Nd a (Some 3) l b true)) as (a1 & b1 & l1 & N1) by (do 3 eexists; reflexivity).
  assert (exists a b l, nodes Z s' 2 = Some (Nd a (Some 1) l b true)) as (a2 & b2 & l2 & N2) by (do 3 eexists; reflexivity).
  assert (exists a b l, nodes Z s' 3 = Some (Nd a (Some 2) l b true)) as (a3 & b3 & l3 & N3) by (do 3 eexists; reflexivity).
  induction f as [|f (IH1 & IH2 & IH3)]; [split; [|split]; reflexivity|].
  cbn [worldcoords]. rewrite N1, N2, N3. cbn [changed parent loc wc]. rewrite IH1, IH2, IH3. auto.
Qed.
Print Assumptions C88_assoc_refuted.
(** :move-to with :parent makes the object given the rotation and position of the frame, which is then overwritten with the next move; here it is
    the constant *world-coords* *)
Theorem C88_move_to_refuted : exists s n v s' s'', hist s /\ live s n /\ kept s n 0 /\ runs (fun f => move_to Z Z.add Z.mul Z.opp same f s n 0 Parent) s' /\
  runs (fun f => translate Z Z.add Z.mul same f s' n v Local) s'' /\ mem Z s'' 0 <> unit_coords Z 0%Z 1%Z.
Proof.
  set (s' := got (move_to Z Z.add Z.mul Z.opp same 6 s8 2 0 Parent) s8). set (s'' := got (translate Z Z.add Z.mul same 6 s' 2 (V Z 1 0 0)%Z Local) s8).
  exists s8, 2, (V Z 1 0 0)%Z, s', s''. split; [exact h8|]. split; [liv|]. split; [|split; [go|split; [go|]]].
  - split; [cbn; lia|]. split; [vm_compute; lia|]. intros [|[|[|[|m]]]] L; try (exfalso; apply L; reflexivity); vm_compute; lia.
  - intros E. vm_compute in E. discriminate E.
Qed.
Print Assumptions C88_move_to_refuted.
(** :rotate-with-matrix with :world overwrites the matrix it is given *)
Theorem C88_rotate_refuted : exists s n g s', hist s /\ live s n /\ zorth (args Z s g) /\ runs (fun f => rotate_with_matrix Z Z.add Z.mul same f s n g World) s' /\ args Z s' g <> args Z s g.
Proof.
  set (t := set_arg Z s8 5 quarter_x). set (s' := got (rotate_with_matrix Z Z.add Z.mul same 6 t 2 5 World) t).
  exists t, 2, 5, s'. split; [eapply h_step; [exact h8|constructor]|]. split; [liv|]. split; [orth_|]. split; [go|]. intros E. vm_compute in E. discriminate E.
Qed.
Print Assumptions C88_rotate_refuted.
(** :assoc with coordinates does nothing for a frame that hangs there already *)
Theorem C88_assoc_at_refuted : exists s p c a V s', hist s /\ live s c /\ ~ above s c p /\ free s a /\ zorth (rot Z (mem Z s a)) /\ zpose s p V /\
  runs (fun f => zassoc f s p c (Some a)) s' /\ ~ zpose s' c (tc Z Z.add Z.mul V (mem Z s a)).
Proof.
  exists s8, 1, 2, 9, w1, (got (zassoc 6 s8 1 2 (Some 9)) s8). split; [exact h8|]. split; [liv|]. split; [intros H; apply root_above in H; [discriminate|reflexivity]|]. split; [|split; [orth_|split; [exact p1|split; [go|]]]].
  - split; [cbn; lia|]. intros [|[|[|[|m]]]] L; try (exfalso; apply L; reflexivity); vm_compute; lia.
  - intros H. change (zpose s8 2 (tc Z Z.add Z.mul w1 (mem Z s8 9))) in H. pose proof (pose_fun Z Z.add Z.mul s8 2 _ H w2 p2) as E. vm_compute in E. discriminate E.
Qed.
Print Assumptions C88_assoc_at_refuted.
