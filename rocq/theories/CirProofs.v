(** Proofs for C107. *)
From Coq Require Import ZArith List Bool Lia.
From Verif Require Import HullModel CirModel CirSpec.
Import ListNotations.
Open Scope Z_scope.

Lemma point_eq (a b : point) : px a = px b -> py a = py b -> pz a = pz b -> a = b.
Proof. destruct a as [a1 a2 a3], b as [b1 b2 b3]. cbn [px py pz]. intros -> -> ->. reflexivity. Qed.
Lemma colinear_in_line a b c : colinear_p a b c = true -> in_line a b c.
Proof.
  unfold colinear_p, in_line. intros H. apply andb_true_iff in H. destruct H as [H _]. unfold zero in H. rewrite !andb_true_iff, !Z.eqb_eq in H. destruct H as [[H1 H2] H3].
  change times with vcross. apply point_eq; assumption.
Qed.
Lemma in_line_colinear a b c : a <> b -> in_line a b c -> colinear_p a b c = true.
Proof.
  unfold colinear_p, in_line. change times with vcross. intros N ->. cbn [zero px py pz Z.eqb andb]. apply negb_true_iff, andb_false_iff. left.
  destruct (zero (minus b a)) eqn:E; [|reflexivity]. unfold zero, minus in E. cbn [px py pz] in E. rewrite !andb_true_iff, !Z.eqb_eq in E. destruct N. apply point_eq; lia.
Qed.
Ltac coords H := let H1 := fresh H in let H2 := fresh H in let H3 := fresh H in
  pose proof (f_equal px H) as H1; pose proof (f_equal py H) as H2; pose proof (f_equal pz H) as H3; cbn [px py pz] in H1, H2, H3; clear H.
(** lines through two common points *)
Lemma par1 ui xi x2 x3 u2 u3 y2 y3 : ui <> 0 -> ui * x2 = xi * u2 -> ui * x3 = xi * u3 -> u2 * y3 - u3 * y2 = 0 -> x2 * y3 - x3 * y2 = 0.
Proof.
  intros N E2 E3 B. assert (K : ui * (x2 * y3 - x3 * y2) = 0).
  { replace (ui * (x2 * y3 - x3 * y2)) with ((ui * x2) * y3 - (ui * x3) * y2) by ring. rewrite E2, E3. replace (xi * u2 * y3 - xi * u3 * y2) with (xi * (u2 * y3 - u3 * y2)) by ring. rewrite B. ring. }
  apply Z.mul_eq_0 in K. destruct K; [contradiction | assumption].
Qed.
Lemma in_line_trans a b c d : b <> c -> in_line a b c -> in_line b c d -> in_line a b d.
Proof.
  intros N H K. destruct a as [a1 a2 a3], b as [b1 b2 b3], c as [c1 c2 c3], d as [d1 d2 d3]. unfold in_line, times, minus in *. cbn [px py pz] in *. coords H. coords K.
  set (x1 := b1 - a1). set (x2 := b2 - a2). set (x3 := b3 - a3). set (u1 := c1 - b1). set (u2 := c2 - b2). set (u3 := c3 - b3).
  set (y1 := d1 - b1). set (y2 := d2 - b2). set (y3 := d3 - b3).
  assert (A1 : x2 * u3 - x3 * u2 = 0) by (subst x2 x3 u2 u3; lia). assert (A2 : x3 * u1 - x1 * u3 = 0) by (subst x3 x1 u1 u3; lia). assert (A3 : x1 * u2 - x2 * u1 = 0) by (subst x1 x2 u1 u2; lia).
  assert (B1 : u2 * y3 - u3 * y2 = 0) by (subst u2 u3 y2 y3; lia). assert (B2 : u3 * y1 - u1 * y3 = 0) by (subst u3 u1 y1 y3; lia). assert (B3 : u1 * y2 - u2 * y1 = 0) by (subst u1 u2 y1 y2; lia).
  assert (U : u1 <> 0 \/ u2 <> 0 \/ u3 <> 0).
  { destruct (Z.eq_dec u1 0); [|auto]. destruct (Z.eq_dec u2 0); [|auto]. destruct (Z.eq_dec u3 0); [|auto]. destruct N. subst u1 u2 u3. f_equal; lia. }
  replace (d1 - a1) with (x1 + y1) by (subst x1 y1; lia). replace (d2 - a2) with (x2 + y2) by (subst x2 y2; lia). replace (d3 - a3) with (x3 + y3) by (subst x3 y3; lia).
  clearbody x1 x2 x3 u1 u2 u3 y1 y2 y3. clear - A1 A2 A3 B1 B2 B3 U.
  f_equal; [replace (x2 * (x3 + y3) - x3 * (x2 + y2)) with (x2 * y3 - x3 * y2) by ring | replace (x3 * (x1 + y1) - x1 * (x3 + y3)) with (x3 * y1 - x1 * y3) by ring
           | replace (x1 * (x2 + y2) - x2 * (x1 + y1)) with (x1 * y2 - x2 * y1) by ring].
  - destruct U as [U | [U | U]]; [apply (par1 u1 x1 x2 x3 u2 u3) | apply (par1 u2 x2 x2 x3 u2 u3) | apply (par1 u3 x3 x2 x3 u2 u3)]; (exact U || exact B1 || lia).
  - destruct U as [U | [U | U]]; [apply (par1 u1 x1 x3 x1 u3 u1) | apply (par1 u2 x2 x3 x1 u3 u1) | apply (par1 u3 x3 x3 x1 u3 u1)]; (exact U || exact B2 || lia).
  - destruct U as [U | [U | U]]; [apply (par1 u1 x1 x1 x2 u1 u2) | apply (par1 u2 x2 x1 x2 u1 u2) | apply (par1 u3 x3 x1 x2 u1 u2)]; (exact U || exact B3 || lia).
Qed.

(** ** the function *)
Lemma remove_step a b c d l : remove_colinears (a :: b :: c :: d :: l) =
  if colinear_p a b c then a :: tl (remove_colinears (b :: c :: d :: l)) else a :: remove_colinears (b :: c :: d :: l).
Proof. reflexivity. Qed.
(** the second corner that stays is on the line of the first two *)
Lemma remove_two l : forall b c, stepping (b :: c :: l) -> exists d t, remove_colinears (b :: c :: l) = b :: d :: t /\ in_line b c d.
Proof.
  assert (T : forall b c, in_line b c c) by (intros b c; unfold in_line, times, minus; cbn [px py pz]; f_equal; ring).
  induction l as [|e l IH]; intros b c S; [exists c, []; auto|]. destruct l as [|f l]; [exists c, [e]; auto|].
  cbn [stepping] in S. destruct S as (N1 & N2 & S). destruct (IH c e) as (d & t & E & L); [cbn [stepping]; split; assumption|]. rewrite remove_step. rewrite E. cbn [tl].
  destruct (colinear_p b c e) eqn:Co; [|exists c, (d :: t); auto]. exists d, t. split; [reflexivity|]. apply (in_line_trans b c e d N2); [apply colinear_in_line, Co | exact L].
Qed.
Lemma plus_assoc a b c : plus a (plus b c) = plus (plus a b) c.
Proof. unfold plus. cbn [px py pz]. f_equal; ring. Qed.
Lemma skip_area a b d : in_line a b d -> plus (times a b) (times b d) = times a d.
Proof.
  unfold in_line. intros H. destruct a as [a1 a2 a3], b as [b1 b2 b3], d as [d1 d2 d3]. unfold times, plus, minus in *. cbn [px py pz] in *. coords H. f_equal; lia.
Qed.
Lemma swept_two a b t : swept (a :: b :: t) = plus (times a b) (swept (b :: t)).
Proof. reflexivity. Qed.
Lemma remove_swept z l : stepping l -> swept (remove_colinears l ++ [z]) = swept (l ++ [z]).
Proof.
  induction l as [|a l IH]; intros S; [reflexivity|]. destruct l as [|b l]; [reflexivity|]. destruct l as [|c l]; [reflexivity|]. destruct l as [|d l]; [reflexivity|].
  pose proof S as S'. cbn [stepping] in S'. destruct S' as (N1 & S'). assert (Sb : stepping (b :: c :: d :: l)) by exact S'. specialize (IH Sb).
  destruct (remove_two (d :: l) b c Sb) as (e & t & E & L). rewrite remove_step. rewrite E in *. cbn [tl].
  change ((a :: b :: c :: d :: l) ++ [z]) with (a :: b :: (c :: d :: l) ++ [z]). rewrite (swept_two a b). change (b :: (c :: d :: l) ++ [z]) with ((b :: c :: d :: l) ++ [z]). rewrite <- IH.
  destruct (colinear_p a b c) eqn:Co; cbn [app]; rewrite ?swept_two; [|reflexivity].
  rewrite plus_assoc. f_equal. symmetry. apply skip_area. apply (in_line_trans a b c e); [destruct S' as [N2 _]; exact N2 | apply colinear_in_line, Co | exact L].
Qed.
Lemma remove_head l p t : l = p :: t -> exists t', remove_colinears l = p :: t'.
Proof. intros ->. destruct t as [|b [|c [|d t]]]; try (eexists; reflexivity). rewrite remove_step. destruct (colinear_p p b c); eexists; reflexivity. Qed.
Lemma remove_part l : part_of (remove_colinears l) l /\ match l with [] => True | _ :: r => part_of (tl (remove_colinears l)) r end.
Proof.
  assert (R : forall l, part_of l l) by (induction l0; constructor; assumption).
  induction l as [|a l [IH1 IH2]]; [split; [constructor | exact I]|]. destruct l as [|b [|c [|d l]]]; try (split; apply R).
  rewrite remove_step. destruct (colinear_p a b c); cbn [tl]; split; try (apply part_keep); try assumption; apply part_drop; exact IH2.
Qed.

(** ** nothing in line stays *)
Lemma in_line_cycle a b c : in_line a b c -> in_line b c a.
Proof. intros H. destruct a as [a1 a2 a3], b as [b1 b2 b3], c as [c1 c2 c3]. unfold in_line, times, minus in *. cbn [px py pz] in *. coords H. f_equal; lia. Qed.
Lemma in_line_swap a b c : in_line a b c -> in_line b a c.
Proof. intros H. destruct a as [a1 a2 a3], b as [b1 b2 b3], c as [c1 c2 c3]. unfold in_line, times, minus in *. cbn [px py pz] in *. coords H. f_equal; lia. Qed.
Lemma dotp_trans a b c e : in_line a b c -> 0 < dotp (minus b a) (minus c b) -> 0 < dotp (minus c b) (minus e b) -> 0 < dotp (minus b a) (minus e b).
Proof.
  intros H. destruct a as [a1 a2 a3], b as [b1 b2 b3], c as [c1 c2 c3], e as [e1 e2 e3]. unfold in_line, times, minus, dotp in *. cbn [px py pz] in *. coords H.
  set (x1 := b1 - a1). set (x2 := b2 - a2). set (x3 := b3 - a3). set (u1 := c1 - b1). set (u2 := c2 - b2). set (u3 := c3 - b3). set (y1 := e1 - b1). set (y2 := e2 - b2). set (y3 := e3 - b3).
  assert (A1 : x2 * u3 - x3 * u2 = 0) by (subst x2 x3 u2 u3; lia). assert (A2 : x3 * u1 - x1 * u3 = 0) by (subst x3 x1 u1 u3; lia). assert (A3 : x1 * u2 - x2 * u1 = 0) by (subst x1 x2 u1 u2; lia).
  clearbody x1 x2 x3 u1 u2 u3 y1 y2 y3. clear - A1 A2 A3. intros P Q.
  assert (Id : (x1 * y1 + x2 * y2 + x3 * y3) * (u1 * u1 + u2 * u2 + u3 * u3) = (x1 * u1 + x2 * u2 + x3 * u3) * (u1 * y1 + u2 * y2 + u3 * y3)
    + (x2 * u3 - x3 * u2) * (y2 * u3 - y3 * u2) + (x3 * u1 - x1 * u3) * (y3 * u1 - y1 * u3) + (x1 * u2 - x2 * u1) * (y1 * u2 - y2 * u1)) by ring.
  rewrite A1, A2, A3 in Id. pose proof (Z.mul_pos_pos _ _ P Q) as R. assert (G : 0 < (x1 * y1 + x2 * y2 + x3 * y3) * (u1 * u1 + u2 * u2 + u3 * u3)) by lia.
  assert (0 <= u1 * u1 + u2 * u2 + u3 * u3) by (pose proof (Z.square_nonneg u1); pose proof (Z.square_nonneg u2); pose proof (Z.square_nonneg u3); lia).
  apply Z.lt_0_mul in G. lia.
Qed.
Lemma dotp_from a b e : a <> b -> 0 < dotp (minus b a) (minus e b) -> 0 < dotp (minus b a) (minus e a).
Proof.
  intros N H. assert (E : dotp (minus b a) (minus e a) = dotp (minus b a) (minus b a) + dotp (minus b a) (minus e b)) by (unfold dotp, minus; cbn [px py pz]; ring).
  assert (0 <= dotp (minus b a) (minus b a)); [|lia]. unfold dotp. match goal with |- 0 <= ?x * ?x + ?y * ?y + ?z * ?z => pose proof (Z.square_nonneg x); pose proof (Z.square_nonneg y); pose proof (Z.square_nonneg z) end. lia.
Qed.
Lemma dotp_self a b : a <> b -> 0 < dotp (minus b a) (minus b a).
Proof.
  intros N. destruct a as [a1 a2 a3], b as [b1 b2 b3]. unfold dotp, minus. cbn [px py pz]. pose proof (Z.square_nonneg (b1 - a1)). pose proof (Z.square_nonneg (b2 - a2)). pose proof (Z.square_nonneg (b3 - a3)).
  destruct (Z.eq_dec b1 a1); [|nia]. destruct (Z.eq_dec b2 a2); [|nia]. destruct (Z.eq_dec b3 a3); [|nia]. destruct N. congruence.
Qed.
Lemma dotp_ne a b e : 0 < dotp (minus b a) (minus e a) -> e <> a.
Proof. intros H ->. assert (dotp (minus b a) (minus a a) = 0) by (unfold dotp, minus; cbn [px py pz]; ring). lia. Qed.
Lemma remove_two_forward l : forall b c, stepping (b :: c :: l) -> forward (b :: c :: l) ->
  exists d t, remove_colinears (b :: c :: l) = b :: d :: t /\ in_line b c d /\ 0 < dotp (minus c b) (minus d b).
Proof.
  assert (T : forall b c, in_line b c c) by (intros b c; unfold in_line, times, minus; cbn [px py pz]; f_equal; ring).
  induction l as [|e l IH]; intros b c S F; [exists c, []; split; [reflexivity|]; split; [apply T | apply dotp_self, S]|].
  destruct l as [|f l]; [exists c, [e]; split; [reflexivity|]; split; [apply T | apply dotp_self, S]|].
  destruct S as (N1 & S). destruct F as (F1 & F). assert (N2 := proj1 S). destruct (IH c e S F) as (d & t & E & L & D). rewrite remove_step, E. cbn [tl].
  destruct (colinear_p b c e) eqn:Co; [|exists c, (d :: t); split; [reflexivity|]; split; [apply T | apply dotp_self, N1]]. apply colinear_in_line in Co.
  exists d, t. split; [reflexivity|]. split; [exact (in_line_trans b c e d N2 Co L)|]. apply dotp_from; [exact N1|]. exact (dotp_trans b c e d Co (F1 Co) D).
Qed.
Lemma remove_bends l : stepping l -> forward l -> bends_inside (remove_colinears l).
Proof.
  induction l as [|a l IH]; intros S F; [exact I|]. destruct l as [|b [|c l]]; [exact I | exact I|]. destruct l as [|d l]; [exact I|].
  destruct S as (N1 & S). destruct F as (F1 & F). specialize (IH S F). assert (N2 := proj1 S). destruct (remove_two_forward (d :: l) b c S F) as (e & t & E & L & D).
  rewrite remove_step. rewrite E in *. cbn [tl]. destruct (colinear_p a b c) eqn:Co.
  - apply colinear_in_line in Co. destruct t as [|f [|g t]]; [exact I | exact I|]. destruct IH as [B IH]. split; [|exact IH]. intros C. apply B.
    assert (Nea : e <> a) by (apply (dotp_ne a b), dotp_from; [exact N1|]; exact (dotp_trans a b c e Co (F1 Co) D)).
    assert (Lab : in_line a b e) by exact (in_line_trans a b c e N2 Co L).
    apply (in_line_trans b e a f Nea); [apply in_line_cycle, Lab | apply in_line_swap, C].
  - destruct t as [|f t]; [exact I|]. split; [|exact IH]. intros C. assert (Neb : b <> e) by (intros <-; apply (dotp_ne b c b D); reflexivity).
    assert (K : in_line a b c) by (apply (in_line_trans a b e c Neb C); apply in_line_cycle, in_line_swap, L).
    rewrite (in_line_colinear a b c N1 K) in Co. discriminate.
Qed.
