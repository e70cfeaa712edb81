(** Proofs for C103: chains of the hull on one side of a segment. *)
From Coq Require Import ZArith List Bool Lia.
From Verif Require Import HullModel HullSpec.
Import ListNotations.
Open Scope Z_scope.

Ltac alg := unfold side, triangle, sca3, dot, cross, minus; cbn [px py pz]; ring.
Section Seen.
Variable nv : point.

Lemma triangle_side a b p : triangle a p b nv = - side nv a b p. Proof. alg. Qed.
Lemma triangle_side' a b p : triangle p a b nv = side nv a b p. Proof. alg. Qed.
Lemma side_flip a b p : side nv b a p = - side nv a b p. Proof. alg. Qed.
Lemma side_end a b : side nv a b b = 0. Proof. alg. Qed.
Lemma side_start a b : side nv a b a = 0. Proof. alg. Qed.
Lemma side_none a p : side nv a a p = 0. Proof. alg. Qed.

(** ** extreme points *)
Lemma extream_loop_ok (le : Z -> Z -> Prop) (key : point -> Z) (test : Z -> Z -> bool) : (forall a, le a a) -> (forall a b c, le a b -> le b c -> le a c) ->
  (forall a b, if test a b then le b a else le a b) ->
  forall vs ext, let r := extream_loop key test vs ext (key ext) in In r (ext :: vs) /\ forall p, In p (ext :: vs) -> le (key p) (key r).
Proof.
  intros Rf Tr Te. induction vs as [|v vs IH]; intros ext; cbn [extream_loop]; cbv zeta.
  - split; [left; reflexivity|]. intros p [<- | []]. apply Rf.
  - specialize (Te (key v) (key ext)). destruct (test (key v) (key ext)).
    + destruct (IH v) as [I H]. split; [right; exact I|]. intros p [<- | Hp]; [|exact (H p Hp)]. eapply Tr; [exact Te|]. apply H. left. reflexivity.
    + destruct (IH ext) as [I H]. split; [destruct I as [I | I]; [left; exact I | right; right; exact I]|].
      intros p [<- | [<- | Hp]]; [apply H; left; reflexivity | | apply H; right; exact Hp]. eapply Tr; [exact Te|]. apply H. left. reflexivity.
Qed.
Lemma leftmost_ok s l r : s <> [] -> exists h, leftmost_point s l r nv = Some h /\ In h s /\ forall p, In p s -> 1 * side nv l r p <= 1 * side nv l r h.
Proof.
  intros N. destruct s as [|x s]; [contradiction|]. unfold leftmost_point, find_extream. eexists. split; [reflexivity|].
  destruct (extream_loop_ok Z.le (fun x => triangle x l r nv) Z.gtb Z.le_refl Z.le_trans) with (vs := s) (ext := x) as [I H].
  { intros a b. destruct (Z.gtb_spec a b); lia. }
  split; [exact I|]. intros p Hp. specialize (H p Hp). cbv beta in H. rewrite !triangle_side' in H. rewrite !triangle_side'. lia.
Qed.
Lemma rightmost_ok s l r : s <> [] -> exists h, rightmost_point s l r nv = Some h /\ In h s /\ forall p, In p s -> -1 * side nv l r p <= -1 * side nv l r h.
Proof.
  intros N. destruct s as [|x s]; [contradiction|]. unfold rightmost_point, find_extream. eexists. split; [reflexivity|].
  destruct (extream_loop_ok (fun a b => b <= a) (fun x => triangle x l r nv) Z.ltb Z.le_refl (fun a b c H K => Z.le_trans _ _ _ K H)) with (vs := s) (ext := x) as [I H].
  { intros a b. destruct (Z.ltb_spec a b); lia. }
  split; [exact I|]. intros p Hp. specialize (H p Hp). cbv beta in H. rewrite !triangle_side' in H. rewrite !triangle_side'. lia.
Qed.
Lemma least_ok key s : s <> [] -> exists h, find_extream s key Z.leb = Some h /\ In h s /\ forall p, In p s -> key h <= key p.
Proof.
  intros N. destruct s as [|x s]; [contradiction|]. unfold find_extream. eexists. split; [reflexivity|].
  apply (extream_loop_ok (fun a b => b <= a) key Z.leb Z.le_refl (fun a b c H K => Z.le_trans _ _ _ K H)). intros a b. destruct (Z.leb_spec a b); lia.
Qed.
Lemma greatest_ok key s : s <> [] -> exists h, find_extream s key Z.geb = Some h /\ In h s /\ forall p, In p s -> key p <= key h.
Proof.
  intros N. destruct s as [|x s]; [contradiction|]. unfold find_extream. eexists. split; [reflexivity|].
  apply (extream_loop_ok Z.le key Z.geb Z.le_refl Z.le_trans). intros a b. rewrite Z.geb_leb. destruct (Z.leb_spec b a); lia.
Qed.
Lemma left_points_in s a b p : In p (left_points s a b nv) <-> In p s /\ 0 < 1 * side nv a b p.
Proof. unfold left_points. rewrite filter_In, triangle_side, Z.ltb_lt. intuition lia. Qed.
Lemma right_points_in s a b p : In p (right_points s a b nv) <-> In p s /\ 0 < -1 * side nv a b p.
Proof. unfold right_points. rewrite filter_In, triangle_side, Z.gtb_ltb, Z.ltb_lt. intuition lia. Qed.
Lemma filter_less {A} (f : A -> bool) h s : In h s -> f h = false -> (length (filter f s) < length s)%nat.
Proof.
  induction s as [|x s IH]; intros I F; [destruct I|]. cbn [filter length]. assert (L : (length (filter f s) <= length s)%nat).
  { clear. induction s as [|x s IH]; cbn [filter length]; [lia|]. destruct (f x); cbn [length]; lia. }
  destruct I as [-> | I]; [rewrite F; lia|]. specialize (IH I F). destruct (f x); cbn [length]; lia.
Qed.
Lemma same_eq a b : same a b = true <-> a = b.
Proof.
  destruct a as [a1 a2 a3], b as [b1 b2 b3]. unfold same. cbn [px py pz]. rewrite !andb_true_iff, !Z.eqb_eq. split; [intros [[-> ->] ->]; reflexivity | intros H; injection H; auto].
Qed.
Lemma delete1_head h l : delete1 h (h :: l) = l.
Proof. cbn [delete1]. destruct (same h h) eqn:E; [reflexivity|]. assert (same h h = true) by (apply same_eq; reflexivity). congruence. Qed.
Lemma delete1_skip h x l : ~ In h x -> delete1 h (x ++ l) = x ++ delete1 h l.
Proof.
  induction x as [|y x IH]; intros N; [reflexivity|]. cbn [app delete1]. destruct (same h y) eqn:E.
  - apply same_eq in E. destruct N. left. auto.
  - rewrite IH; [reflexivity|]. intros H. apply N. right. exact H.
Qed.

(** ** chains: [c] is what is found between [l] and [r] on the side [e] *)
Inductive chain (e : Z) : list point -> point -> point -> list point -> Prop :=
| chain_nil l r : chain e [] l r []
| chain_cons s l r h s1 s2 c1 c2 : In h s -> (forall p, In p s -> e * side nv l r p <= e * side nv l r h) ->
    (forall p, In p s1 <-> In p s /\ 0 < e * side nv l h p) -> (forall p, In p s2 <-> In p s /\ 0 < e * side nv h r p) ->
    chain e s1 l h c1 -> chain e s2 h r c2 -> chain e s l r (c1 ++ h :: c2).

Lemma chain_incl e s l r c : chain e s l r c -> incl c s.
Proof.
  induction 1 as [|s l r h s1 s2 c1 c2 I M F1 F2 _ IH1 _ IH2]; intros p Hp; [exact Hp|].
  apply in_app_iff in Hp. destruct Hp as [Hp | [<- | Hp]]; [apply F1, IH1, Hp | exact I | apply F2, IH2, Hp].
Qed.
Lemma left_chain : forall fuel (s : list point) (l r : point), (length s <= fuel)%nat -> exists c, quickhull_left fuel s l r nv = Some (l :: c ++ [r]) /\ chain 1 s l r c.
Proof.
  induction fuel as [|n IH]; intros s l r L.
  - destruct s; [|cbn [length] in L; lia]. exists []. split; [reflexivity | constructor].
  - destruct s as [|x s0]; [exists []; split; [reflexivity | constructor]|]. set (s := x :: s0) in *.
    destruct (leftmost_ok s l r) as (h & E & I & M); [discriminate|].
    assert (L1 : (length (left_points s l h nv) < length s)%nat) by (apply (filter_less _ h); [exact I | rewrite triangle_side, side_end; reflexivity]).
    assert (L2 : (length (left_points s h r nv) < length s)%nat) by (apply (filter_less _ h); [exact I | rewrite triangle_side, side_start; reflexivity]).
    destruct (IH (left_points s l h nv) l h ltac:(lia)) as (c1 & E1 & C1). destruct (IH (left_points s h r nv) h r ltac:(lia)) as (c2 & E2 & C2).
    exists (c1 ++ h :: c2). split.
    + unfold s at 1. cbn [quickhull_left]. fold s. rewrite E, E1, E2, delete1_head. f_equal. cbn [app]. rewrite <- !app_assoc. reflexivity.
    + eapply chain_cons; [exact I | exact M | intros p; apply left_points_in | intros p; apply left_points_in | exact C1 | exact C2].
Qed.
Lemma right_chain : forall fuel (s : list point) (l r : point), (length s <= fuel)%nat -> (forall p, In p s -> 0 < -1 * side nv l r p) ->
  exists w c, quickhull_right fuel s l r nv = Some w /\ delete1 l w = r :: rev c /\ chain (-1) s l r c.
Proof.
  induction fuel as [|n IH]; intros s l r L P.
  - destruct s; [|cbn [length] in L; lia]. exists [l; r], []. split; [reflexivity | split; [apply delete1_head | constructor]].
  - destruct s as [|x s0]; [exists [l; r], []; split; [reflexivity | split; [apply delete1_head | constructor]]|]. set (s := x :: s0) in *.
    destruct (rightmost_ok s l r) as (h & E & I & M); [discriminate|].
    assert (L1 : (length (right_points s l h nv) < length s)%nat) by (apply (filter_less _ h); [exact I | rewrite triangle_side, side_end; reflexivity]).
    assert (L2 : (length (right_points s h r nv) < length s)%nat) by (apply (filter_less _ h); [exact I | rewrite triangle_side, side_start; reflexivity]).
    destruct (IH (right_points s l h nv) l h) as (w1 & c1 & E1 & D1 & C1); [lia | intros p Hp; apply right_points_in in Hp; apply Hp|].
    destruct (IH (right_points s h r nv) h r) as (w2 & c2 & E2 & D2 & C2); [lia | intros p Hp; apply right_points_in in Hp; apply Hp|].
    exists (delete1 h w2 ++ w1), (c1 ++ h :: c2). split; [|split].
    + unfold s at 1. cbn [quickhull_right]. fold s. rewrite E, E1, E2. reflexivity.
    + rewrite D2, delete1_skip, D1.
      * rewrite rev_app_distr. cbn [rev app]. rewrite <- app_assoc. reflexivity.
      * intros [Q | Q]; [subst r; specialize (P h I); rewrite side_none in P; lia|].
        apply in_rev in Q. apply (chain_incl _ _ _ _ _ C2), right_points_in in Q. destruct Q as [Q _]. specialize (P l Q). rewrite side_start in P. lia.
    + eapply chain_cons; [exact I | exact M | intros p; apply right_points_in | intros p; apply right_points_in | exact C1 | exact C2].
Qed.

Lemma nodup_app {A} (a b : list A) : NoDup a -> NoDup b -> (forall x, In x a -> ~ In x b) -> NoDup (a ++ b).
Proof.
  induction 1 as [|x a N _ IH]; intros B D; [exact B|]. cbn [app]. constructor.
  - rewrite in_app_iff. intros [H | H]; [exact (N H) | exact (D x (or_introl eq_refl) H)].
  - apply IH; [exact B|]. intros y Hy. apply D. right. exact Hy.
Qed.
Lemma chain_nodup e s l r c : chain e s l r c -> (forall p, In p s -> 0 < e * side nv l r p) -> NoDup c.
Proof.
  induction 1 as [|s l r h s1 s2 c1 c2 I M F1 F2 K1 IH1 K2 IH2]; intros P; [constructor|].
  assert (N1 : NoDup c1) by (apply IH1; intros p Hp; apply F1, Hp). assert (N2 : NoDup c2) by (apply IH2; intros p Hp; apply F2, Hp).
  apply nodup_app; [exact N1 | constructor; [|exact N2] |].
  - intros Q. apply (chain_incl _ _ _ _ _ K2), F2 in Q. rewrite side_start in Q. lia.
  - intros p Hp Q. apply (chain_incl _ _ _ _ _ K1), F1 in Hp. destruct Hp as [Hp H1]. destruct Q as [<- | Q]; [rewrite side_end in H1; lia|].
    apply (chain_incl _ _ _ _ _ K2), F2 in Q. destruct Q as [_ H2]. specialize (M p Hp).
    assert (S : e * side nv l h p + e * side nv h r p = e * side nv l r p - e * side nv l r h) by alg. lia.
Qed.
(** points that were passed over are in a triangle *)
Lemma chain_hull e s l r c : chain e s l r c -> (forall p, In p s -> 0 < e * side nv l r p) -> forall w k, dot w nv = 0 -> (forall q, In q (l :: c ++ [r]) -> dot w q <= k) ->
  forall p, In p s -> dot w p <= k.
Proof.
  induction 1 as [|s l r h s1 s2 c1 c2 I M F1 F2 K1 IH1 K2 IH2]; intros P w k Wn B p Hp; [destruct Hp|].
  destruct (Z_lt_le_dec 0 (e * side nv l h p)) as [G1 | G1].
  { apply IH1; [intros q Hq; apply F1, Hq | exact Wn | | apply F1; split; assumption]. intros q Hq. apply B. cbn [In] in *. rewrite !in_app_iff in *. cbn [In] in *. tauto. }
  destruct (Z_lt_le_dec 0 (e * side nv h r p)) as [G2 | G2].
  { apply IH2; [intros q Hq; apply F2, Hq | exact Wn | | apply F2; split; assumption]. intros q Hq. apply B. cbn [In] in *. rewrite !in_app_iff in *. cbn [In] in *. tauto. }
  assert (Bl : dot w l <= k) by (apply B; left; reflexivity).
  assert (Br : dot w r <= k) by (apply B; right; apply in_app_iff; right; left; reflexivity).
  assert (Bh : dot w h <= k) by (apply B; right; rewrite !in_app_iff; left; right; left; reflexivity).
  pose proof (P h I) as D. pose proof (P p Hp) as W.
  assert (Id : e * side nv l r h * (k - dot w p) =
    - (e * side nv h r p) * (k - dot w l) + e * side nv l r p * (k - dot w h) + - (e * side nv l h p) * (k - dot w r) + e * sca3 (minus h l) (minus r l) (minus p l) * dot w nv) by alg.
  rewrite Wn, Z.mul_0_r, Z.add_0_r in Id.
  set (D0 := e * side nv l r h) in *. set (W0 := e * side nv l r p) in *. set (X := e * side nv h r p) in *. set (Y := e * side nv l h p) in *.
  assert (0 <= - X * (k - (dot w l))) by (apply Z.mul_nonneg_nonneg; lia). assert (0 <= W0 * (k - (dot w h))) by (apply Z.mul_nonneg_nonneg; lia).
  assert (0 <= - Y * (k - (dot w r))) by (apply Z.mul_nonneg_nonneg; lia).
  assert (0 <= D0 * (k - (dot w p))) by lia. assert (0 <= k - (dot w p)) by (apply Z.mul_nonneg_cancel_l in H2; lia). lia.
Qed.

(** ** edges *)
Lemma pairs_app x h y : forall q, In q (pairs (x ++ h :: y)) -> In q (pairs (x ++ [h])) \/ In q (pairs (h :: y)).
Proof.
  induction x as [|a x IH]; intros q H; [right; exact H|]. destruct x as [|b x].
  - cbn [app pairs] in *. destruct H as [H | H]; [left; left; exact H | right; exact H].
  - cbn [app pairs] in *. destruct H as [H | H]; [left; left; exact H|]. destruct (IH q H) as [G | G]; [left; right; exact G | right; exact G].
Qed.
Lemma pairs_app_r x h y q : In q (pairs (h :: y)) -> In q (pairs (x ++ h :: y)).
Proof. induction x as [|a x IH]; intros H; [exact H|]. specialize (IH H). destruct x; cbn [app pairs] in *; right; exact IH. Qed.
Lemma pairs_app_l x y q : In q (pairs x) -> In q (pairs (x ++ y)).
Proof.
  induction x as [|a x IH]; intros H; [destruct H|]. destruct x as [|b x]; [destruct H|]. cbn [app pairs] in *. destruct H as [H | H]; [left; exact H | right; apply IH, H].
Qed.
Lemma pairs_rev l a b : In (a, b) (pairs (rev l)) -> In (b, a) (pairs l).
Proof.
  induction l as [|x l IH]; [intros []|]. destruct l as [|y l]; [intros []|]. cbn [rev] in *. rewrite <- app_assoc. cbn [app]. intros H.
  apply pairs_app in H. destruct H as [H | H]; [right; apply IH, H|]. cbn [pairs] in H. destruct H as [H | []]. injection H as <- <-. left. reflexivity.
Qed.

(** a line through [l] that has all points on one side, [r] not on it *)
Definition supported (T : list point) (l r : point) : Prop :=
  exists w, dot w nv = 0 /\ (forall p, In p T -> 0 <= dot w (minus p l)) /\ 0 < dot w (minus r l).
(** what is beyond l-h is beyond l-r *)
Lemma beyond_l e T l r h p : supported T l r -> In h T -> In p T -> 0 < e * side nv l r h -> 0 < e * side nv l h p -> 0 < e * side nv l r p.
Proof.
  intros (w & Wn & S & G) Hh Hp D X. destruct (Z_lt_le_dec 0 (e * side nv l r p)) as [|N]; [assumption|exfalso].
  pose proof (S h Hh) as Sh. pose proof (S p Hp) as Sp. set (fh := dot w (minus h l)) in *. set (fp := dot w (minus p l)) in *.
  set (fr := dot w (minus r l)) in *.
  assert (Id : e * side nv l h p * fr + - (e * side nv l r p) * fh + e * side nv l r h * fp = 0) by (subst fh fp fr; transitivity (- e * sca3 (minus h l) (minus r l) (minus p l) * dot w nv); [alg | rewrite Wn; ring]).
  set (A := e * side nv l h p) in *. set (B := e * side nv l r p) in *. set (C := e * side nv l r h) in *.
  assert (0 < A * fr) by (apply Z.mul_pos_pos; lia). assert (0 <= - B * fh) by (apply Z.mul_nonneg_nonneg; lia). assert (0 <= C * fp) by (apply Z.mul_nonneg_nonneg; lia). lia.
Qed.
Lemma beyond_r e T l r h p : supported T r l -> In h T -> In p T -> 0 < e * side nv l r h -> 0 < e * side nv h r p -> 0 < e * side nv l r p.
Proof.
  intros S Hh Hp D X. assert (K : 0 < (- e) * side nv r l p); [|rewrite side_flip in K; lia]. apply (beyond_l (- e) T r l h p S Hh Hp); [rewrite side_flip; lia|].
  rewrite side_flip. replace (- e * - side nv h r p) with (e * side nv h r p) by ring. exact X.
Qed.
(** and if h is on the supporting line, nothing is beyond l-h *)
Lemma supported_l e T l r h p : supported T l r -> In h T -> In p T -> 0 < e * side nv l r h -> 0 < e * side nv l h p -> supported T l h.
Proof.
  intros (w & Wn & S & G) Hh Hp D X. exists w. split; [exact Wn|]. split; [exact S|]. pose proof (S h Hh) as Sh. pose proof (S p Hp) as Sp.
  destruct (Z.eq_dec (dot w (minus h l)) 0) as [Z0|]; [exfalso|lia].
  set (fp := dot w (minus p l)) in *. set (fr := dot w (minus r l)) in *.
  assert (Id : e * side nv l h p * fr + - (e * side nv l r p) * (dot w (minus h l)) + e * side nv l r h * fp = 0) by (subst fp fr; transitivity (- e * sca3 (minus h l) (minus r l) (minus p l) * dot w nv); [alg | rewrite Wn; ring]).
  rewrite Z0, Z.mul_0_r in Id. set (A := e * side nv l h p) in *. set (C := e * side nv l r h) in *.
  assert (0 < A * fr) by (apply Z.mul_pos_pos; lia). assert (0 <= C * fp) by (apply Z.mul_nonneg_nonneg; lia). lia.
Qed.
Lemma supported_r e T l r h p : supported T r l -> In h T -> In p T -> 0 < e * side nv l r h -> 0 < e * side nv h r p -> supported T r h.
Proof.
  intros S Hh Hp D X. apply (supported_l (- e) T r l h p S Hh Hp); [rewrite side_flip; lia|]. rewrite side_flip. replace (- e * - side nv h r p) with (e * side nv h r p) by ring. exact X.
Qed.
Lemma chain_edges e T s l r c : chain e s l r c -> In l T -> In r T -> incl s T -> (forall p, In p T -> 0 < e * side nv l r p -> In p s) -> (forall p, In p s -> 0 < e * side nv l r p) ->
  (s <> [] -> supported T l r /\ supported T r l) -> forall a b, In (a, b) (pairs (l :: c ++ [r])) -> forall p, In p T -> e * side nv a b p <= 0.
Proof.
  induction 1 as [l r|s l r h s1 s2 c1 c2 I M F1 F2 K1 IH1 K2 IH2]; intros Tl Tr Ts A P Su a b E p Hp.
  - cbn [app pairs] in E. destruct E as [E | []]. injection E as <- <-. destruct (Z_lt_le_dec 0 (e * side nv l r p)) as [H|]; [destruct (A p Hp H)|assumption].
  - pose proof (Ts h I) as Th. pose proof (P h I) as D. destruct Su as [Sl Sr]; [intros ->; destruct I|].
    assert (Mh : forall q, In q T -> e * side nv l r q <= e * side nv l r h).
    { intros q Hq. destruct (Z_lt_le_dec 0 (e * side nv l r q)) as [G|]; [apply M, A; assumption | lia]. }
    assert (Sh : forall q, q = l \/ q = r -> supported T h q).
    { intros q Q. set (w := cross (minus r l) nv). exists (Pt (e * px w) (e * py w) (e * pz w)). split; [subst w; alg|]. split.
      - intros q' Hq'. specialize (Mh q' Hq'). assert (Id : dot (Pt (e * px w) (e * py w) (e * pz w)) (minus q' h) = e * side nv l r h - e * side nv l r q') by (subst w; alg). lia.
      - assert (Id : dot (Pt (e * px w) (e * py w) (e * pz w)) (minus q h) = e * side nv l r h) by (subst w; destruct Q as [-> | ->]; alg). lia. }
    rewrite <- app_assoc in E. apply (pairs_app (l :: c1) h (c2 ++ [r])) in E. destruct E as [E | E].
    + apply (IH1 Tl Th) with (a := a) (b := b); [intros q Hq; apply Ts, F1, Hq | | intros q Hq; apply F1, Hq | | exact E | exact Hp].
      * intros q Hq X. apply F1. split; [|exact X]. apply A; [exact Hq|]. exact (beyond_l e T l r h q Sl Th Hq D X).
      * intros N. split; [|apply Sh; left; reflexivity]. destruct s1 as [|q s1]; [contradiction|]. destruct (proj1 (F1 q) (or_introl eq_refl)) as [Q X].
        exact (supported_l e T l r h q Sl Th (Ts q Q) D X).
    + apply (IH2 Th Tr) with (a := a) (b := b); [intros q Hq; apply Ts, F2, Hq | | intros q Hq; apply F2, Hq | | exact E | exact Hp].
      * intros q Hq X. apply F2. split; [|exact X]. apply A; [exact Hq|]. exact (beyond_r e T l r h q Sr Th Hq D X).
      * intros N. split; [apply Sh; right; reflexivity|]. destruct s2 as [|q s2]; [contradiction|]. destruct (proj1 (F2 q) (or_introl eq_refl)) as [Q X].
        exact (supported_r e T l r h q Sr Th (Ts q Q) D X).
Qed.
End Seen.

(** ** directions in the plane *)
Definition flatten (n w : point) : point := Pt (dot n n * px w - dot w n * px n) (dot n n * py w - dot w n * py n) (dot n n * pz w - dot w n * pz n).
Definition neg (a : point) : point := Pt (- px a) (- py a) (- pz a).
Lemma flatten_dot n w : dot (flatten n w) n = 0 /\ forall q, dot (flatten n w) q = dot n n * dot w q - dot w n * dot n q.
Proof. split; [|intros q]; unfold flatten; alg. Qed.
Lemma flatten_neg n w q : dot (flatten (neg n) (neg w)) q = - dot (flatten n w) q.
Proof. unfold flatten, neg. alg. Qed.
Lemma dot_minus w a b : dot w (minus a b) = dot w a - dot w b.
Proof. alg. Qed.
Lemma coord_dot n : exists E, forall p, extream_coord n p = dot E p.
Proof.
  unfold extream_coord. destruct (_ >? _); [exists (Pt 0 1 0) | exists (Pt 1 0 0)]; intros p; unfold dot; cbn [px py pz]; ring.
Qed.
Lemma on_line n E w k a b p : dot n n * ((dot E b - dot E a) * (k - dot w p)) =
  dot n n * ((dot E b - dot E p) * (k - dot w a) + (dot E p - dot E a) * (k - dot w b)) - side n a b p * dot (cross E w) n
  - (dot n b - dot n a) * dot (cross E w) (cross n (minus p a)) + (dot n p - dot n a) * dot (cross E w) (cross n (minus b a)).
Proof. alg. Qed.
Lemma coord_good n a b c : dot n n <> 0 -> dot n a = dot n b -> dot n a = dot n c -> extream_coord n a = extream_coord n b -> extream_coord n a = extream_coord n c -> side n a b c = 0.
Proof.
  destruct n as [n1 n2 n3], a as [a1 a2 a3], b as [b1 b2 b3], c as [c1 c2 c3]. unfold extream_coord, side, cross, minus, dot. cbn [px py pz].
  rewrite Z.gtb_ltb. destruct (Z.ltb_spec (Z.abs n2) (Z.abs n1)) as [G | G]; cbn [px py pz]; intros N H1 H2 E1 E2; rewrite <- E1, <- E2 in *.
  - set (D := (b3 - a3) * (c1 - a1) - (b1 - a1) * (c3 - a3)).
    assert (K : n1 * D = 0).
    { assert (A1 : n1 * (b1 - a1) = - n3 * (b3 - a3)) by lia. assert (A2 : n1 * (c1 - a1) = - n3 * (c3 - a3)) by lia.
      replace (n1 * D) with ((b3 - a3) * (n1 * (c1 - a1)) - n1 * (b1 - a1) * (c3 - a3)) by (subst D; ring). rewrite A1, A2. ring. }
    apply Z.mul_eq_0 in K. destruct K as [K | K]; [lia|]. transitivity (n2 * D); [subst D; ring | rewrite K; ring].
  - set (D := (b2 - a2) * (c3 - a3) - (b3 - a3) * (c2 - a2)). assert (A1 : n2 * (b2 - a2) = - n3 * (b3 - a3)) by lia. assert (A2 : n2 * (c2 - a2) = - n3 * (c3 - a3)) by lia.
    assert (K2 : n2 * D = 0).
    { replace (n2 * D) with (n2 * (b2 - a2) * (c3 - a3) - (b3 - a3) * (n2 * (c2 - a2))) by (subst D; ring). rewrite A1, A2. ring. }
    assert (K3 : n3 * D = 0).
    { replace (n3 * D) with (- (b2 - a2) * (- n3 * (c3 - a3)) + (- n3 * (b3 - a3)) * (c2 - a2)) by (subst D; ring). rewrite <- A1, <- A2. ring. }
    transitivity (n1 * D); [subst D; ring|]. apply Z.mul_eq_0 in K2, K3. destruct K2 as [K2 | K2]; [|rewrite K2; ring]. destruct K3 as [K3 | K3]; [|rewrite K3; ring].
    assert (n1 = 0) by lia. subst. destruct N. reflexivity.
Qed.
