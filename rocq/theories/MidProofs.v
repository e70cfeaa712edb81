(** Proofs for C108. *)
From Coq Require Import ZArith List Bool Lia.
From Verif Require Import HullModel CirModel CirSpec CirProofs MidModel MidSpec.
Import ListNotations.
Open Scope Z_scope.

Lemma line_numbers a b c : in_line a b c -> inner (minus b a) (minus c a) * inner (minus b a) (minus c a) = inner (minus b a) (minus b a) * inner (minus c a) (minus c a).
Proof.
  intros H. destruct a as [a1 a2 a3], b as [b1 b2 b3], c as [c1 c2 c3]. unfold in_line, times, minus, inner in *. cbn [px py pz] in *. coords H.
  set (x1 := b1 - a1) in *. set (x2 := b2 - a2) in *. set (x3 := b3 - a3) in *. set (y1 := c1 - a1) in *. set (y2 := c2 - a2) in *. set (y3 := c3 - a3) in *. clearbody x1 x2 x3 y1 y2 y3.
  assert (Id : (x1 * x1 + x2 * x2 + x3 * x3) * (y1 * y1 + y2 * y2 + y3 * y3) = (x1 * y1 + x2 * y2 + x3 * y3) * (x1 * y1 + x2 * y2 + x3 * y3)
    + (x2 * y3 - x3 * y2) * (x2 * y3 - x3 * y2) + (x3 * y1 - x1 * y3) * (x3 * y1 - x1 * y3) + (x1 * y2 - x2 * y1) * (x1 * y2 - x2 * y1)) by ring.
  rewrite H0, H1, H2 in Id. lia.
Qed.
Lemma pick_spec p1 p2 p3 x : p1 <> p2 -> p1 <> p3 -> p2 <> p3 ->
  pick p1 p2 p3 = Some x <-> (x = p1 /\ between p2 x p3) \/ (x = p2 /\ between p1 x p3) \/ (x = p3 /\ between p1 x p2).
Proof.
  intros N12 N13 N23. unfold pick, colinear_value. destruct (colinear_p p1 p2 p3) eqn:Co.
  - apply colinear_in_line in Co. pose proof (line_numbers p1 p2 p3 Co) as Q.
    set (A := inner (minus p2 p1) (minus p2 p1)) in *. set (B := inner (minus p3 p1) (minus p3 p1)) in *. set (C := inner (minus p2 p1) (minus p3 p1)) in *.
    assert (PA : 0 < A) by (apply (dotp_self p1 p2), N12). assert (PB : 0 < B) by (apply (dotp_self p1 p3), N13).
    assert (PC : 0 < A + B - 2 * C).
    { pose proof (dotp_self p2 p3 N23) as G. assert (E : dotp (minus p3 p2) (minus p3 p2) = A + B - 2 * C) by (unfold A, B, C, dotp, inner, minus; cbn [px py pz]; ring). lia. }
    assert (W1 : between p2 p1 p3 <-> C < 0).
    { unfold between. assert (E : dotp (minus p1 p2) (minus p3 p1) = - C) by (unfold C, dotp, inner, minus; cbn [px py pz]; ring). rewrite E. split; [lia|]. intros G. split; [apply in_line_swap, Co | lia]. }
    assert (W2 : between p1 p2 p3 <-> A < C).
    { unfold between. assert (E : dotp (minus p2 p1) (minus p3 p2) = C - A) by (unfold A, C, dotp, inner, minus; cbn [px py pz]; ring). rewrite E. split; [lia|]. intros G. split; [exact Co | lia]. }
    assert (W3 : between p1 p3 p2 <-> B < C).
    { unfold between. assert (E : dotp (minus p3 p1) (minus p2 p3) = C - B) by (unfold B, C, dotp, inner, minus; cbn [px py pz]; ring). rewrite E. split; [lia|]. intros G. split; [apply in_line_cycle, in_line_swap, Co | lia]. }
    clearbody A B C.
    assert (R : if C <? 0 then C < 0 /\ ~ A < C /\ ~ B < C else if C <? B then ~ C < 0 /\ A < C /\ ~ B < C else ~ C < 0 /\ ~ A < C /\ B < C).
    { destruct (Z.ltb_spec C 0); [lia|]. destruct (Z.ltb_spec C B); nia. }
    destruct (C <? 0); [|destruct (C <? B)]; (split; [intros H; injection H as <- | intros [[-> H] | [[-> H] | [-> H]]]]); try reflexivity; try tauto.
  - split; [discriminate|]. assert (K : ~ in_line p1 p2 p3) by (intros K; rewrite (in_line_colinear p1 p2 p3 N12 K) in Co; discriminate).
    intros [[-> [H _]] | [[-> [H _]] | [-> [H _]]]]; destruct K; [apply in_line_swap, H | exact H | apply in_line_cycle, in_line_swap, H].
Qed.

(** ** the loops *)
Lemma with_p3_in p1 p2 x l : forall res, In x (with_p3 p1 p2 l res) <-> In x res \/ exists p3, In p3 l /\ pick p1 p2 p3 = Some x.
Proof.
  induction l as [|p3 l IH]; intros res; cbn [with_p3]; [split; [auto | intros [H | (p & [] & _)]; exact H]|]. rewrite IH. split.
  - intros [H | (p & I & P)]; [|right; exists p; split; [right; exact I | exact P]]. destruct (pick p1 p2 p3) as [y|] eqn:E; [|auto]. destruct H as [<- | H]; [|auto]. right. exists p3. split; [left; reflexivity | exact E].
  - intros [H | (p & [<- | I] & P)]; [left; destruct (pick p1 p2 p3); [right; exact H | exact H] | left; rewrite P; left; reflexivity | right; exists p; auto].
Qed.
(** [a] comes before [b] *)
Definition before (a b : point) (l : list point) : Prop := exists u v, l = u ++ a :: v /\ In b v.
Lemma before_cons a b p l : before a b (p :: l) <-> (a = p /\ In b l) \/ before a b l.
Proof.
  split.
  - intros (u & v & E & I). destruct u as [|q u]; injection E as -> ->; [left; auto | right; exists u, v; auto].
  - intros [[-> I] | (u & v & -> & I)]; [exists [], l; auto | exists (p :: u), v; auto].
Qed.
Lemma before_in a b l : before a b l -> In a l /\ In b l.
Proof. intros (u & v & -> & I). rewrite !in_app_iff. cbn [In]. auto. Qed.
Lemma before_ne a b l : NoDup l -> before a b l -> a <> b.
Proof. intros N (u & v & -> & I) <-. apply NoDup_remove_2 in N. apply N, in_app_iff. auto. Qed.
Lemma before_total a b l : In a l -> In b l -> a <> b -> before a b l \/ before b a l.
Proof.
  induction l as [|p l IH]; intros Ia Ib N; [destruct Ia|]. rewrite !before_cons. destruct Ia as [-> | Ia], Ib as [-> | Ib]; [contradiction | auto | auto|]. destruct (IH Ia Ib N); auto.
Qed.
Lemma with_p2_in p1 x l : forall res, In x (with_p2 p1 l res) <-> In x res \/ exists p2 p3, before p2 p3 l /\ pick p1 p2 p3 = Some x.
Proof.
  induction l as [|p2 l IH]; intros res; cbn [with_p2].
  - split; [auto|]. intros [H | (p2 & p3 & B & _)]; [exact H|]. destruct (proj1 (before_in _ _ _ B)).
  - rewrite IH, with_p3_in. split.
    + intros [[H | (p3 & I & P)] | (q & p3 & B & P)]; [auto | right; exists p2, p3; rewrite before_cons; auto | right; exists q, p3; rewrite before_cons; auto].
    + intros [H | (q & p3 & B & P)]; [auto|]. apply before_cons in B. destruct B as [[-> I] | B]; [left; right; exists p3; auto | right; exists q, p3; auto].
Qed.
Lemma between_sym a x b : between a x b -> between b x a.
Proof.
  intros [L D]. split; [apply in_line_swap, in_line_cycle, L|]. assert (E : dotp (minus x b) (minus a x) = dotp (minus x a) (minus b x)) by (unfold dotp, minus; cbn [px py pz]; ring). lia.
Qed.
Lemma between_ne a x b : between a x b -> x <> a /\ x <> b /\ a <> b.
Proof.
  intros [L D]. assert (Z1 : forall p q : point, dotp (minus p p) q = 0) by (intros; unfold dotp, minus; cbn [px py pz]; ring). assert (Z2 : forall p q : point, dotp q (minus p p) = 0) by (intros; unfold dotp, minus; cbn [px py pz]; ring).
  split; [intros ->; rewrite Z1 in D; lia|]. split; [intros ->; rewrite Z2 in D; lia|]. intros ->. unfold dotp, minus in D. cbn [px py pz] in D.
  pose proof (Z.square_nonneg (px x - px b)). pose proof (Z.square_nonneg (py x - py b)). pose proof (Z.square_nonneg (pz x - pz b)). nia.
Qed.
Lemma with_p1_in x l : NoDup l -> forall res, In x (with_p1 l res) <-> In x res \/ (In x l /\ exists a b, In a l /\ In b l /\ between a x b).
Proof.
  induction 1 as [|p1 l Np N IH]; intros res; cbn [with_p1]; [split; [auto | intros [H | [[] _]]; exact H]|]. rewrite IH, with_p2_in.
  assert (Ne : forall q, In q l -> p1 <> q) by (intros q I ->; contradiction). split.
  - intros [[H | (p2 & p3 & B & P)] | (I & a & b & Ia & Ib & Bt)]; [auto | | right; split; [right; exact I|]; exists a, b; cbn [In]; auto].
    destruct (before_in _ _ _ B) as [I2 I3]. apply pick_spec in P; [|apply Ne, I2 | apply Ne, I3 | exact (before_ne _ _ _ N B)]. right.
    destruct P as [[-> Bt] | [[-> Bt] | [-> Bt]]]; (split; [cbn [In]; auto|]); [exists p2, p3 | exists p1, p3 | exists p1, p2]; cbn [In]; auto.
  - intros [H | (I & a & b & Ia & Ib & Bt)]; [auto|]. destruct (between_ne _ _ _ Bt) as (Nxa & Nxb & Nab).
    assert (K : forall y z, In y l -> In z l -> y <> z -> ((x = p1 /\ between y x z) \/ (x = y /\ between p1 x z)) -> exists p2 p3, before p2 p3 l /\ pick p1 p2 p3 = Some x).
    { intros y z Iy Iz Nyz G. destruct (before_total y z l Iy Iz Nyz) as [B | B]; [exists y, z | exists z, y]; (split; [exact B|]); apply pick_spec; auto.
      - tauto.
      - destruct G as [[E G] | G]; [left; split; [exact E | apply between_sym, G] | right; right; exact G]. }
    destruct I as [E | I]; [subst x|].
    + destruct Ia as [C | Ia]; [contradiction|]. destruct Ib as [C | Ib]; [contradiction|]. left. right. apply (K a b); auto.
    + destruct Ia as [E | Ia], Ib as [E' | Ib]; [congruence | subst a | subst b |].
      * left. right. apply (K x b); auto.
      * left. right. apply (K x a); auto. right. split; [reflexivity | apply between_sym, Bt].
      * right. split; [exact I|]. exists a, b. auto.
Qed.
