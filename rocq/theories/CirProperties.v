(** C107: leaving out the corners of a polygon that are on straight lines. *)
From Coq Require Import ZArith List Bool Lia.
From Verif Require Import HullModel CirModel CirSpec CirProofs.
Import ListNotations.
Open Scope Z_scope.

(** What stays are corners of the polygon, in order, the first one first; *)
Theorem C107_part : forall l, part_of (remove_colinears l) l /\ firstn 1 (remove_colinears l) = firstn 1 l.
Proof.
  intros l. split; [apply remove_part|]. destruct l as [|p t]; [reflexivity|]. destruct (remove_head (p :: t) p t eq_refl) as (t' & ->). reflexivity.
Qed.
(** they enclose the same area, if no corner is followed by itself; *)
Theorem C107_area_partial : forall l, stepping l -> area2 (remove_colinears l) = area2 l.
Proof.
  intros l S. unfold area2. destruct (C107_part l) as [_ ->]. destruct l as [|p t]; [reflexivity|]. cbn [firstn]. apply (remove_swept p (p :: t) S).
Qed.
(** and nothing is left out where there is a bend at each corner. *)
Theorem C107_bends : forall l, bends l -> remove_colinears l = l.
Proof.
  induction l as [|a l IH]; intros B; [reflexivity|]. destruct l as [|b [|c [|d l]]]; try reflexivity. destruct B as [N B]. rewrite remove_step, (IH B).
  destruct (colinear_p a b c) eqn:E; [|reflexivity]. destruct N. apply colinear_in_line, E.
Qed.
(** A corner that is on a line with its neighbours, not the first nor one of the last two, is left out. *)
Theorem C107_dropped : forall a b c d l, a <> b -> in_line a b c -> part_of (remove_colinears (a :: b :: c :: d :: l)) (a :: c :: d :: l).
Proof.
  intros a b c d l N L. rewrite remove_step, (in_line_colinear a b c N L). apply part_keep. apply (remove_part (b :: c :: d :: l)).
Qed.

(** In the result no corner is on a line with its neighbours, but perhaps the first and the last two; unless the polygon turns back on a line. *)
Theorem C107_straight_partial : forall l, stepping l -> forward l -> bends_inside (remove_colinears l).
Proof. exact remove_bends. Qed.

Definition point_dec (a b : point) : {a = b} + {a <> b}.
Proof. decide equality; apply Z.eq_dec. Defined.
(** The last two corners and the first are not tested; and of two corners at one place both are left out, so that the polygon changes. *)
Theorem C107_refuted :
  (exists l, stepping l /\ remove_colinears l = l /\ exists a b c m, l = a :: m ++ [b; c] /\ in_line b c a /\ b <> c /\ c <> a) /\
  (exists l, bends (nodup point_dec l) /\ area2 (remove_colinears l) <> area2 l).
Proof.
  split.
  - exists [Pt 0 0 0; Pt 2 0 0; Pt 2 2 0; Pt 0 2 0; Pt 0 1 0]. split; [cbn; repeat split; discriminate|]. split; [reflexivity|].
    exists (Pt 0 0 0), (Pt 0 2 0), (Pt 0 1 0), [Pt 2 0 0; Pt 2 2 0]. split; [reflexivity|]. split; [reflexivity|]. split; discriminate.
  - exists [Pt 0 0 0; Pt 2 0 0; Pt 2 0 0; Pt 2 2 0; Pt 0 2 0]. split; [cbn; repeat split; discriminate | discriminate].
Qed.

Example C107_example : let l := [Pt 0 0 1; Pt 1 0 1; Pt 2 0 1; Pt 3 0 1; Pt 3 1 1; Pt 3 2 1; Pt 0 2 1] in
  stepping l /\ forward l /\ remove_colinears l = [Pt 0 0 1; Pt 3 0 1; Pt 3 2 1; Pt 0 2 1] /\ pz (area2 l) = 12 /\ bends (remove_colinears l).
Proof. cbv zeta. split; [cbn; repeat split; discriminate|]. split; [cbn; repeat split; discriminate|]. split; [reflexivity|]. split; [reflexivity|]. cbn. repeat split; discriminate. Qed.

Print Assumptions C107_part.
Print Assumptions C107_area_partial.
Print Assumptions C107_bends.
Print Assumptions C107_dropped.
Print Assumptions C107_straight_partial.
Print Assumptions C107_refuted.
