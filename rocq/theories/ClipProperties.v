(** C92: clipping a segment to the viewport leaves exactly its visible part. *)
From Coq Require Import Reals List Bool NArith Lia Lra Psatz.
From Verif Require Import GeoModel GeoSpec GeoProofs GeoProofs2 ClipModel.
Import ListNotations.
Local Open Scope R_scope.

(** * Specification *)
(** a point is in the viewing pyramid *)
Definition in_view (p : vec) : Prop := - vz p <= vx p <= vz p /\ - vz p <= vy p <= vz p.
(** a point in homogeneous coordinates is in the viewing volume *)
Definition in_volume (p : hvec) : Prop := - hw p <= hx p <= hw p /\ - hw p <= hy p <= hw p /\ 0 <= hz p <= hw p.
Definition halong (p q : hvec) (t : R) : hvec :=
  H4 (hx p + t * (hx q - hx p)) (hy p + t * (hy q - hy p)) (hz p + t * (hz q - hz p)) (hw p + t * (hw q - hw p)).
Definition on_hsegment (p q z : hvec) : Prop := exists t, 0 <= t <= 1 /\ z = halong p q t.
(** the point a vector stands for: the fourth component is 1 if there is none *)
Definition point_of (v : vec) (w : option R) (p : hvec) : Prop :=
  hx p = vx v /\ hy p = vy v /\ hz p = vz v /\ (w = Some (hw p) \/ w = None /\ hw p = 1).

(** * homogeneous clipping *)
Definition lerp (a b t : R) : R := a + t * (b - a).
Definition all_ge (wc : list (R * R)) (t : R) : Prop := forall w, In w wc -> 0 <= lerp (fst w) (snd w) t.

Fixpoint val (l : list bool) : N := match l with [] => 0 | b :: r => (if b then 1 else 0) + 2 * val r end%N.
Lemma wcode_loop_val : forall wc code c, wcode_loop code c wc = (code + c * val (map (fun w => ltb w 0%R) wc))%N.
Proof.
  induction wc as [|w r IH]; intros code c; cbn [wcode_loop map val]; [rewrite N.mul_0_r, N.add_0_r; reflexivity|].
  rewrite IH. destruct (ltb w 0).
  - change (code + c + 2 * c * val (map (fun w : R => ltb w 0%R) r) = code + c * (1 + 2 * val (map (fun w : R => ltb w 0%R) r)))%N.
    set (v := val _). rewrite N.mul_add_distr_l, N.mul_1_r, N.mul_assoc, (N.mul_comm c 2), N.add_assoc. reflexivity.
  - change (code + 2 * c * val (map (fun w : R => ltb w 0%R) r) = code + c * (0 + 2 * val (map (fun w : R => ltb w 0%R) r)))%N.
    set (v := val _). rewrite N.add_0_l, N.mul_assoc, (N.mul_comm c 2). reflexivity.
Qed.
Lemma land_step : forall (a b : bool) x y,
  N.land ((if a then 1 else 0) + 2 * x) ((if b then 1 else 0) + 2 * y) = ((if a && b then 1 else 0) + 2 * N.land x y)%N.
Proof.
  intros a b x y. destruct a, b; cbn [andb]; apply N.bits_inj; intros n; rewrite N.land_spec; destruct n as [|n] using N.peano_ind;
    rewrite ?(N.add_comm 1), ?N.add_0_l, ?N.testbit_odd_0, ?N.testbit_even_0, ?N.testbit_odd_succ, ?N.testbit_even_succ by apply N.le_0_l;
    rewrite ?N.land_spec; reflexivity.
Qed.
Lemma land_val : forall l m, length l = length m ->
  (N.land (val l) (val m) =? 0)%N = negb (existsb (fun p => fst p && snd p) (combine l m)).
Proof.
  induction l as [|a l IH]; intros [|b m] L; cbn [length] in L; try discriminate; [reflexivity|].
  cbn [val combine existsb fst snd]. rewrite land_step, negb_orb, <- IH by (injection L; auto).
  destruct (a && b); cbn [negb andb].
  - destruct (N.land (val l) (val m)); reflexivity.
  - destruct (N.land (val l) (val m)); reflexivity.
Qed.

Lemma tloop_ok : forall wc t1 t2, (forall w, In w wc -> ~ (fst w < 0 /\ snd w < 0)) -> 0 <= t1 -> t2 <= 1 ->
  exists s1 s2, tloop wc t1 t2 = Some (s1, s2) /\ 0 <= s1 /\ s2 <= 1 /\
    forall t, s1 <= t <= s2 <-> t1 <= t <= t2 /\ all_ge wc t.
Proof.
  induction wc as [|[w1 w2] r IH]; intros t1 t2 N A B; cbn [tloop].
  - exists t1, t2. split; [reflexivity|]. split; [exact A|]. split; [exact B|]. intros t. split; [intros H; split; [exact H|intros w []] | tauto].
  - assert (N' : forall w, In w r -> ~ (fst w < 0 /\ snd w < 0)) by (intros w W; apply N; right; exact W).
    assert (N0 := N (w1, w2) (or_introl eq_refl)). cbn [fst snd] in N0.
    assert (C : forall t, all_ge ((w1, w2) :: r) t <-> 0 <= lerp w1 w2 t /\ all_ge r t).
    { intros t. split; [intros H; split; [apply (H (w1, w2)); left; reflexivity | intros w W; apply H; right; exact W]|].
      intros [H1 H2] w [<-|W]; [exact H1 | apply H2; exact W]. }
    ltbs H1 w1 0; ltbs H2 w2 0; cbn [orb].
    + exfalso. tauto.
    + unfold ndiv. destruct (Req_EM_T (w1 - w2) 0) as [Z|Z]; [lra|].
      assert (E : w1 / (w1 - w2) * (w1 - w2) = w1) by (field; exact Z). set (tx := w1 / (w1 - w2)) in *. clearbody tx.
      assert (T : 0 < tx) by nra.
      assert (G : forall t, 0 <= lerp w1 w2 t <-> tx <= t) by (intros t; unfold lerp; split; intros; nra).
      destruct (IH (if ltb t1 tx then tx else t1) t2 N') as [s1 [s2 [F [S1 [S2 I']]]]]; [ltbs H3 t1 tx; lra | exact B |].
      exists s1, s2. split; [exact F|]. split; [exact S1|]. split; [exact S2|]. intros t. rewrite I', C, G. ltbs H3 t1 tx; intuition lra.
    + unfold ndiv. destruct (Req_EM_T (w1 - w2) 0) as [Z|Z]; [lra|].
      assert (E : w1 / (w1 - w2) * (w1 - w2) = w1) by (field; exact Z). set (tx := w1 / (w1 - w2)) in *. clearbody tx.
      assert (T : tx < 1) by nra.
      assert (G : forall t, 0 <= lerp w1 w2 t <-> t <= tx) by (intros t; unfold lerp; split; intros; nra).
      destruct (IH t1 (if ltb tx t2 then tx else t2) N') as [s1 [s2 [F [S1 [S2 I']]]]]; [exact A | ltbs H3 tx t2; lra |].
      exists s1, s2. split; [exact F|]. split; [exact S1|]. split; [exact S2|]. intros t. rewrite I', C, G. ltbs H3 tx t2; intuition lra.
    + destruct (IH t1 t2 N' A B) as [s1 [s2 [F [S1 [S2 I']]]]]. exists s1, s2. split; [exact F|]. split; [exact S1|]. split; [exact S2|].
      intros t. rewrite I', C. split; [|tauto]. intros [H3 H4]. split; [exact H3|]. split; [|exact H4]. unfold lerp. nra.
Qed.

Lemma volume_all : forall p q t, in_volume (halong p q t) <-> all_ge (combine (wcoords p) (wcoords q)) t.
Proof.
  intros p q t. unfold in_volume, all_ge, wcoords, halong. cbn [combine hx hy hz hw]. split.
  - intros H w [<-|[<-|[<-|[<-|[<-|[<-|[]]]]]]]; unfold lerp; cbn [fst snd]; lra.
  - intros H.
    assert (A1 := H _ (or_introl eq_refl)). assert (A2 := H _ (or_intror (or_introl eq_refl))).
    assert (A3 := H _ (or_intror (or_intror (or_introl eq_refl)))). assert (A4 := H _ (or_intror (or_intror (or_intror (or_introl eq_refl))))).
    assert (A5 := H _ (or_intror (or_intror (or_intror (or_intror (or_introl eq_refl)))))).
    assert (A6 := H _ (or_intror (or_intror (or_intror (or_intror (or_intror (or_introl eq_refl))))))).
    unfold lerp in *. cbn [fst snd] in *. repeat split; lra.
Qed.
Lemma hvec_ext : forall a b, hx a = hx b -> hy a = hy b -> hz a = hz b -> hw a = hw b -> a = b.
Proof. intros [a b c d] [e f g h]. simpl. intros -> -> -> ->. reflexivity. Qed.
Lemma halong_halong : forall a b p q x, halong (halong a b p) (halong a b q) x = halong a b (p + x * (q - p)).
Proof. intros. unfold halong. apply hvec_ext; cbn [hx hy hz hw]; ring. Qed.
Lemma hseg_between : forall a b p q z, p <= q -> on_hsegment (halong a b p) (halong a b q) z <-> exists t, p <= t <= q /\ z = halong a b t.
Proof.
  intros a b p q z L. split.
  - intros [x [X ->]]. rewrite halong_halong. exists (p + x * (q - p)). split; [nra|reflexivity].
  - intros [t [T ->]]. destruct (Req_EM_T q p) as [E|E].
    + exists 0. rewrite halong_halong. split; [lra|]. f_equal. lra.
    + exists ((t - p) / (q - p)). rewrite halong_halong. assert (G : (t - p) / (q - p) * (q - p) = t - p) by (field; lra).
      split; [split; nra|]. rewrite G. f_equal. ring.
Qed.
Lemma existsb_false : forall (l m : list R),
  existsb (fun p => fst p && snd p) (combine (map (fun w => ltb w 0) l) (map (fun w => ltb w 0) m)) = false ->
  forall w, In w (combine l m) -> ~ (fst w < 0 /\ snd w < 0).
Proof.
  induction l as [|a l IH]; intros [|b m] E w W; cbn [combine map existsb] in *; try contradiction.
  apply orb_false_elim in E. destruct E as [E1 E2]. cbn [fst snd] in E1. destruct W as [<-|W].
  - cbn [fst snd]. ltbs H1 a 0; ltbs H2 b 0; cbn [andb] in E1; try discriminate; lra.
  - apply (IH m E2 w W).
Qed.
Lemma existsb_true : forall (l m : list R),
  existsb (fun p => fst p && snd p) (combine (map (fun w => ltb w 0) l) (map (fun w => ltb w 0) m)) = true ->
  exists w, In w (combine l m) /\ fst w < 0 /\ snd w < 0.
Proof.
  induction l as [|a l IH]; intros [|b m] E; cbn [combine map existsb] in *; try discriminate.
  apply orb_true_iff in E. destruct E as [E|E].
  - exists (a, b). cbn [fst snd] in *. split; [left; reflexivity|]. ltbs H1 a 0; ltbs H2 b 0; cbn [andb] in E; try discriminate. tauto.
  - destruct (IH m E) as [w [W H]]. exists w. split; [right; exact W|exact H].
Qed.

Lemma HOMO_VPCLIP4_ok : forall a b,
  exists r, HOMO_VPCLIP4 a b = Some r /\
    match r with
    | None => forall z, on_hsegment a b z -> ~ in_volume z
    | Some (p, q) => (forall z, on_hsegment p q z <-> on_hsegment a b z /\ in_volume z) /\
                     exists s t, 0 <= s /\ s <= t /\ t <= 1 /\ p = halong a b s /\ q = halong a b t
    end.
Proof.
  intros a b. unfold HOMO_VPCLIP4, wcode. rewrite !wcode_loop_val, !N.mul_1_l, !N.add_0_l, land_val by reflexivity.
  match goal with |- context [existsb ?f ?l] => destruct (existsb f l) eqn:E end; cbn [negb].
  - eexists. split; [reflexivity|]. intros z [t [T ->]] Vv. rewrite volume_all in Vv.
    apply existsb_true in E. destruct E as [w [W [H1 H2]]]. specialize (Vv w W). unfold lerp in Vv. nra.
  - destruct (tloop_ok (combine (wcoords a) (wcoords b)) 0 1 (existsb_false _ _ E)) as [s1 [s2 [F [S1 [S2 G]]]]]; [lra..|].
    rewrite F. eexists. split; [reflexivity|]. ltbs H s2 s1; cbn [negb].
    + intros z [t [T ->]] Vv. rewrite volume_all in Vv. assert (s1 <= t <= s2) by (apply G; tauto). lra.
    + assert (E1 : (if Req_EM_T s1 0 then a else H4 (hx a + s1 * (hx b - hx a)) (hy a + s1 * (hy b - hy a)) (hz a + s1 * (hz b - hz a)) (hw a + s1 * (hw b - hw a))) = halong a b s1).
      { destruct (Req_EM_T s1 0) as [->|_]; [apply hvec_ext; unfold halong; cbn [hx hy hz hw]; ring|reflexivity]. }
      assert (E2 : (if Req_EM_T s2 1 then b else H4 (hx a + s2 * (hx b - hx a)) (hy a + s2 * (hy b - hy a)) (hz a + s2 * (hz b - hz a)) (hw a + s2 * (hw b - hw a))) = halong a b s2).
      { destruct (Req_EM_T s2 1) as [->|_]; [apply hvec_ext; unfold halong; cbn [hx hy hz hw]; ring|reflexivity]. }
      cbv zeta. rewrite E1, E2. split.
      * intros z. rewrite (hseg_between a b s1 s2 z H). split.
        -- intros [t [T ->]]. apply G in T. destruct T as [T Al]. split; [exists t; split; [exact T|reflexivity]|]. apply volume_all. exact Al.
        -- intros [[t [T ->]] Vv]. rewrite volume_all in Vv. exists t. split; [apply G; tauto|reflexivity].
      * exists s1, s2. repeat split; assumption.
Qed.

(** HOMO-VIEWPORT-CLIP gives exactly the part of the segment inside the viewing volume, with its ends in the same order, and
    NIL exactly when no point of the segment is inside. *)
Theorem C92_homogeneous : forall v1 w1 v2 w2 a b, point_of v1 w1 a -> point_of v2 w2 b ->
  exists r, HOMO_VPCLIP v1 w1 v2 w2 = Some r /\
    match r with
    | None => forall z, on_hsegment a b z -> ~ in_volume z
    | Some (p, q) => (forall z, on_hsegment p q z <-> on_hsegment a b z /\ in_volume z) /\
                     exists s t, 0 <= s /\ s <= t /\ t <= 1 /\ p = halong a b s /\ q = halong a b t
    end.
Proof.
  assert (H : forall v w a, point_of v w a -> homo v w = a).
  { intros v w a [A [B [C D]]]. unfold homo. apply hvec_ext; cbn [hx hy hz hw]; try (symmetry; assumption).
    destruct D as [-> | [-> D]]; [reflexivity | symmetry; exact D]. }
  intros v1 w1 v2 w2 a b A B. unfold HOMO_VPCLIP. rewrite (H _ _ _ A), (H _ _ _ B). apply HOMO_VPCLIP4_ok.
Qed.
Print Assumptions C92_homogeneous.
Example C92_homogeneous_ex : point_of (V 0 0 (1 / 2)) None (H4 0 0 (1 / 2) 1) /\ point_of (V 4 0 1) (Some 2) (H4 4 0 1 2) /\
  in_volume (H4 0 0 (1 / 2) 1) /\ ~ in_volume (H4 4 0 1 2).
Proof. unfold point_of, in_volume. cbn [vx vy vz hx hy hz hw]. repeat split; try lra; [right; split; reflexivity | left; reflexivity]. Qed.

(** * clipping to the pyramid *)
(** the four window coordinates of a point *)
Definition hs (p : vec) : list R := [vz p + vx p; vz p - vx p; vz p + vy p; vz p - vy p].
Definition h (j : nat) (p : vec) : R := nth j (hs p) 0.
Definition bits (p : vec) : list bool := map (fun w => ltb w 0) (hs p).
Lemma h_along : forall j p q t, h j (along (Line p q) t) = lerp (h j p) (h j q) t.
Proof.
  intros j p q t. unfold h, hs, along, lerp. cbn [pvert nvert vx vy vz].
  destruct j as [|[|[|[|[|j]]]]]; cbn [nth]; ring.
Qed.
Lemma view_h : forall p, in_view p <-> forall j, 0 <= h j p.
Proof.
  intros p. unfold in_view, h, hs. split.
  - intros H j. destruct j as [|[|[|[|[|j]]]]]; cbn [nth]; lra.
  - intros H. pose proof (H 0%nat) as H0. pose proof (H 1%nat) as H1. pose proof (H 2%nat) as H2. pose proof (H 3%nat) as H3.
    cbn [nth] in *. lra.
Qed.
Lemma clipcode_bits : forall p, 0 < vz p -> clipcode p = val (bits p).
Proof.
  intros p P. unfold clipcode, bits, hs. cbn [map].
  ltbs HkA1 (vx p) (- vz p); ltbs HkA2 (vz p) (vx p); ltbs HkA3 (vy p) (- vz p); ltbs HkA4 (vz p) (vy p);
  ltbs HkB1 (vz p + vx p) 0; ltbs HkB2 (vz p - vx p) 0; ltbs HkB3 (vz p + vy p) 0; ltbs HkB4 (vz p - vy p) 0;
    try (exfalso; lra); reflexivity.
Qed.
Lemma nth_bits : forall p j, nth j (bits p) false = true <-> h j p < 0.
Proof.
  intros p j. unfold bits, h, hs. cbn [map].
  destruct j as [|[|[|[|[|j]]]]]; cbn [nth];
    try (match goal with |- ltb ?x 0 = true <-> _ => ltbs Hb x 0; split; intros; try assumption; try reflexivity; try discriminate; lra end).
  all: split; [discriminate|lra].
Qed.
Lemma val_zero : forall p, val (bits p) = 0%N <-> forall j, 0 <= h j p.
Proof.
  intros p. split.
  - intros E j. destruct (Rlt_le_dec (h j p) 0) as [L|L]; [|exact L]. exfalso. apply nth_bits in L. revert E L.
    unfold bits, hs. cbn [map]. destruct j as [|[|[|[|[|j]]]]]; cbn [nth]; try discriminate; intros E L; cbn [val] in E; rewrite L in E; revert E.
    + repeat match goal with |- context [ltb ?x 0] => destruct (ltb x 0) end; discriminate.
    + repeat match goal with |- context [ltb ?x 0] => destruct (ltb x 0) end; discriminate.
    + repeat match goal with |- context [ltb ?x 0] => destruct (ltb x 0) end; discriminate.
    + repeat match goal with |- context [ltb ?x 0] => destruct (ltb x 0) end; discriminate.
  - intros H. assert (N : forall j, nth j (bits p) false = false).
    { intros j. destruct (nth j (bits p) false) eqn:E; [|reflexivity]. apply nth_bits in E. specialize (H j). lra. }
    pose proof (N 0%nat) as N0. pose proof (N 1%nat) as N1. pose proof (N 2%nat) as N2. pose proof (N 3%nat) as N3. clear N.
    unfold bits, hs in *. cbn [map nth] in *. rewrite N0, N1, N2, N3. reflexivity.
Qed.
Lemma land_bits : forall p q, (N.land (val (bits p)) (val (bits q)) =? 0)%N = false <-> exists j, h j p < 0 /\ h j q < 0.
Proof.
  intros p q. rewrite land_val by reflexivity. rewrite negb_false_iff. split.
  - intros E. unfold bits in E. apply existsb_true in E. destruct E as [w [W [H1 H2]]].
    unfold hs in W. cbn [combine] in W. destruct W as [<-|[<-|[<-|[<-|[]]]]]; [exists 0%nat|exists 1%nat|exists 2%nat|exists 3%nat]; split; assumption.
  - intros [j [H1 H2]]. apply nth_bits in H1. apply nth_bits in H2. revert H1 H2. unfold bits, hs. cbn [map combine existsb fst snd].
    destruct j as [|[|[|[|[|j]]]]]; cbn [nth]; try discriminate; intros -> ->; rewrite ?orb_true_r; reflexivity.
Qed.
(** the point that the code computes is the one where the line meets the plane of the lowest bit *)
Lemma clip_point_ok : forall p1 p2 c, c = val (bits p1) \/ c = val (bits p2) -> c <> 0%N ->
  exists i, (c = val (bits p1) -> h i p1 < 0) /\ (c = val (bits p2) -> h i p2 < 0) /\
    (h i p1 - h i p2 <> 0 -> clip_point p1 p2 c = Some (along (Line p1 p2) (h i p1 / (h i p1 - h i p2)))).
Proof.
  intros p1 p2 c C Z.
  assert (B : exists bs : list bool, length bs = 4%nat /\ c = val bs).
  { destruct C as [->| ->]; eexists; (split; [|reflexivity]); reflexivity. }
  assert (T : forall p j, c = val (bits p) -> N.testbit c (N.of_nat j) = true -> (j < 4)%nat -> h j p < 0).
  { intros p j -> E J. apply nth_bits. revert E. unfold bits, hs. cbn [map]. generalize (ltb (vz p + vx p) 0) (ltb (vz p - vx p) 0) (ltb (vz p + vy p) 0) (ltb (vz p - vy p) 0).
    intros b0 b1 b2 b3. destruct j as [|[|[|[|j]]]]; [| | | |lia]; destruct b0, b1, b2, b3; cbn; intros; first [reflexivity|discriminate]. }
  assert (K : exists i, (i < 4)%nat /\ N.testbit c (N.of_nat i) = true /\
     (h i p1 - h i p2 <> 0 -> clip_point p1 p2 c = Some (along (Line p1 p2) (h i p1 / (h i p1 - h i p2))))).
  { destruct (N.testbit c 0) eqn:E0; [exists 0%nat | destruct (N.testbit c 1) eqn:E1; [exists 1%nat | destruct (N.testbit c 2) eqn:E2; [exists 2%nat | exists 3%nat]]].
    - split; [lia|]. split; [exact E0|]. intros D. unfold clip_point. rewrite E0. unfold h, hs in *. cbn [nth] in *.
      unfold ndiv. match goal with |- context [Req_EM_T ?x 0] => replace x with (vz p1 + vx p1 - (vz p2 + vx p2)) by ring end.
      destruct (Req_EM_T _ 0) as [F|_]; [contradiction|]. f_equal. unfold along. cbn [pvert nvert]. apply vec_ext; cbn [vx vy vz]; field; exact D.
    - split; [lia|]. split; [exact E1|]. intros D. unfold clip_point. rewrite E0, E1. unfold h, hs in *. cbn [nth] in *.
      unfold ndiv. match goal with |- context [Req_EM_T ?x 0] => replace x with (vz p1 - vx p1 - (vz p2 - vx p2)) by ring end.
      destruct (Req_EM_T _ 0) as [F|_]; [contradiction|]. f_equal. unfold along. cbn [pvert nvert]. apply vec_ext; cbn [vx vy vz]; field; exact D.
    - split; [lia|]. split; [exact E2|]. intros D. unfold clip_point. rewrite E0, E1, E2. unfold h, hs in *. cbn [nth] in *.
      unfold ndiv. match goal with |- context [Req_EM_T ?x 0] => replace x with (vz p1 + vy p1 - (vz p2 + vy p2)) by ring end.
      destruct (Req_EM_T _ 0) as [F|_]; [contradiction|]. f_equal. unfold along. cbn [pvert nvert]. apply vec_ext; cbn [vx vy vz]; field; exact D.
    - split; [lia|]. split.
      + destruct B as [bs [L ->]]. destruct bs as [|b0 [|b1 [|b2 [|b3 [|b4 bs]]]]]; cbn [length] in L; try discriminate.
        destruct b0, b1, b2, b3; cbn in *; try discriminate; try reflexivity. exfalso. apply Z. reflexivity.
      + intros D. unfold clip_point. rewrite E0, E1, E2. unfold h, hs in *. cbn [nth] in *.
        unfold ndiv. match goal with |- context [Req_EM_T ?x 0] => replace x with (vz p1 - vy p1 - (vz p2 - vy p2)) by ring end.
        destruct (Req_EM_T _ 0) as [F|_]; [contradiction|]. f_equal. unfold along. cbn [pvert nvert]. apply vec_ext; cbn [vx vy vz]; field; exact D. }
  destruct K as [i [I4 [Ti G]]]. exists i. split; [intros E; apply (T p1 i E Ti I4)|]. split; [intros E; apply (T p2 i E Ti I4)|exact G].
Qed.

Definition clip_spec (p1 p2 : vec) (r : clipped) : Prop :=
  match r with
  | Hidden => forall z, on_segment (Line p1 p2) z -> ~ in_view z
  | Shown p q => (forall z, on_segment (Line p q) z <-> on_segment (Line p1 p2) z /\ in_view z) /\
                 exists s t, 0 <= s /\ s <= t /\ t <= 1 /\ p = along (Line p1 p2) s /\ q = along (Line p1 p2) t
  | _ => False
  end.
(** shortening the segment without losing visible points keeps the answer right *)
Lemma clip_sub : forall p1 p2 a b r, 0 <= a -> a <= b -> b <= 1 ->
  (forall t, 0 <= t <= 1 -> in_view (along (Line p1 p2) t) -> a <= t <= b) ->
  clip_spec (along (Line p1 p2) a) (along (Line p1 p2) b) r -> clip_spec p1 p2 r.
Proof.
  intros p1 p2 a b r A B C K S. set (l := Line p1 p2) in *.
  assert (E : forall z, on_segment (Line (along l a) (along l b)) z /\ in_view z <-> on_segment l z /\ in_view z).
  { intros z. rewrite (seg_between l a b z B). split.
    - intros [[t [T ->]] Vv]. split; [exists t; split; [lra|reflexivity]|exact Vv].
    - intros [[t [T ->]] Vv]. split; [exists t; split; [apply K; assumption|reflexivity]|exact Vv]. }
  destruct r; cbn [clip_spec] in *; try exact S.
  - intros z Z Vv. assert (G : on_segment l z /\ in_view z) by tauto. apply E in G. apply (S z); tauto.
  - destruct S as [S [s [t [S1 [S2 [S3 [-> ->]]]]]]]. split; [intros z; rewrite S; apply E|].
    exists (a + s * (b - a)), (a + t * (b - a)). rewrite !along_along. fold l.
    repeat split; try reflexivity; nra.
Qed.
Lemma vpclip_ok : forall fuel A p1 p2, (length A < fuel)%nat -> (forall j, ~ In j A -> 0 <= h j p1 /\ 0 <= h j p2) ->
  0 < vz p1 -> 0 < vz p2 -> clip_spec p1 p2 (vpclip_loop fuel p1 p2 (clipcode p1) (clipcode p2)).
Proof.
  induction fuel as [|fuel IH]; intros A p1 p2 L Act Z1 Z2; [lia|]. cbn [vpclip_loop].
  assert (Conv : forall t j, 0 <= t <= 1 -> 0 <= h j p1 -> 0 <= h j p2 -> 0 <= h j (along (Line p1 p2) t))
    by (intros t j T H1 H2; rewrite h_along; unfold lerp; nra).
  rewrite (clipcode_bits p1 Z1), (clipcode_bits p2 Z2).
  destruct ((val (bits p1) =? 0)%N && (val (bits p2) =? 0)%N) eqn:E0.
  - apply andb_prop in E0. destruct E0 as [E1 E2]. rewrite N.eqb_eq, val_zero in E1. rewrite N.eqb_eq, val_zero in E2.
    split; [|exists 0, 1; rewrite along_0, along_1; repeat split; lra].
    intros z. split; [|tauto]. intros [t [T ->]]. split; [exists t; split; [exact T|reflexivity]|]. apply view_h. intros j. apply Conv; auto.
  - destruct (N.land (val (bits p1)) (val (bits p2)) =? 0)%N eqn:E; cbn [negb].
    2:{ apply land_bits in E. destruct E as [j [H1 H2]]. intros z [t [T ->]] Vv. rewrite view_h in Vv. specialize (Vv j).
        rewrite h_along in Vv. unfold lerp in Vv. nra. }
    assert (NB : forall j, ~ (h j p1 < 0 /\ h j p2 < 0)).
    { intros j J. assert (X : (N.land (val (bits p1)) (val (bits p2)) =? 0)%N = false) by (apply land_bits; exists j; exact J). congruence. }
    assert (Next : forall i, ~ (0 <= h i p1 /\ 0 <= h i p2) -> (length (remove PeanoNat.Nat.eq_dec i A) < fuel)%nat).
    { intros i N. assert (In i A) by (destruct (in_dec PeanoNat.Nat.eq_dec i A); [assumption|exfalso; apply N, Act; assumption]).
      pose proof (remove_length_lt PeanoNat.Nat.eq_dec A i H). lia. }
    assert (Vz : forall t, 0 <= t <= 1 -> 0 < vz (along (Line p1 p2) t)) by (intros t T; unfold along; cbn [pvert nvert vz]; nra).
    assert (A0 : along (Line p1 p2) 0 = p1) by apply along_0. assert (A1 : along (Line p1 p2) 1 = p2) by apply along_1.
    destruct (val (bits p1) =? 0)%N eqn:E1; cbn [negb].
    + (* the second end is cut off *)
      cbn [andb] in E0. apply N.eqb_neq in E0.
      destruct (clip_point_ok p1 p2 (val (bits p2)) (or_intror eq_refl) E0) as [i [_ [H2 G]]]. specialize (H2 eq_refl).
      assert (H1 : 0 <= h i p1) by (apply val_zero; apply N.eqb_eq; exact E1).
      rewrite G by lra. apply N.eqb_eq in E1. rewrite E1. apply N.eqb_neq in E0. rewrite E0.
      assert (F : h i p1 / (h i p1 - h i p2) * (h i p1 - h i p2) = h i p1) by (field; lra).
      set (t := h i p1 / (h i p1 - h i p2)) in *. clearbody t. assert (T : 0 <= t <= 1) by nra.
      replace 0%N with (clipcode p1) by (rewrite (clipcode_bits p1 Z1); exact E1).
      apply (clip_sub p1 p2 0 t); [lra|lra|lra| |].
      * intros x X Vv. rewrite view_h in Vv. specialize (Vv i). rewrite h_along in Vv. unfold lerp in Vv. split; [lra|nra].
      * rewrite A0. apply (IH (remove PeanoNat.Nat.eq_dec i A)); [apply Next; lra| |exact Z1|apply Vz; exact T].
        intros j J. destruct (PeanoNat.Nat.eq_dec j i) as [->|D].
        -- split; [exact H1|]. rewrite h_along. unfold lerp. nra.
        -- assert (NJ : ~ In j A) by (intros X; apply J; apply in_in_remove; assumption). destruct (Act j NJ) as [Y1 Y2].
           split; [exact Y1|]. apply Conv; assumption.
    + (* the first end is cut off *)
      apply N.eqb_neq in E1.
      destruct (clip_point_ok p1 p2 (val (bits p1)) (or_introl eq_refl) E1) as [i [H1 [_ G]]]. specialize (H1 eq_refl).
      assert (H2 : 0 <= h i p2) by (destruct (Rlt_le_dec (h i p2) 0); [exfalso; apply (NB i); tauto|assumption]).
      rewrite G by lra. rewrite N.eqb_refl.
      assert (F : h i p1 / (h i p1 - h i p2) * (h i p1 - h i p2) = h i p1) by (field; lra).
      set (t := h i p1 / (h i p1 - h i p2)) in *. clearbody t. assert (T : 0 <= t <= 1) by nra.
      rewrite <- (clipcode_bits p2 Z2).
      apply (clip_sub p1 p2 t 1); [lra|lra|lra| |].
      * intros x X Vv. rewrite view_h in Vv. specialize (Vv i). rewrite h_along in Vv. unfold lerp in Vv. split; [nra|lra].
      * rewrite A1. apply (IH (remove PeanoNat.Nat.eq_dec i A)); [apply Next; lra| |apply Vz; exact T|exact Z2].
        intros j J. destruct (PeanoNat.Nat.eq_dec j i) as [->|D].
        -- split; [|exact H2]. rewrite h_along. unfold lerp. nra.
        -- assert (NJ : ~ In j A) by (intros X; apply J; apply in_in_remove; assumption). destruct (Act j NJ) as [Y1 Y2].
           split; [|exact Y2]. apply Conv; assumption.
Qed.

(** VIEWPORTCLIP of two points in front of the eye ends, and gives exactly the part of the segment in the viewing pyramid, with
    its ends in the same order, and NIL exactly when no point of the segment is in it. *)
Theorem C92_pyramid_partial : forall fuel p1 p2, 0 < vz p1 -> 0 < vz p2 ->
  match VPCLIP (5 + fuel) p1 p2 with
  | Hidden => forall z, on_segment (Line p1 p2) z -> ~ in_view z
  | Shown p q => (forall z, on_segment (Line p q) z <-> on_segment (Line p1 p2) z /\ in_view z) /\
                 exists s t, 0 <= s /\ s <= t /\ t <= 1 /\ p = along (Line p1 p2) s /\ q = along (Line p1 p2) t
  | Undefined | Running => False
  end.
Proof.
  intros fuel p1 p2 Z1 Z2. pose proof (vpclip_ok (5 + fuel) [0; 1; 2; 3]%nat p1 p2) as H. unfold VPCLIP.
  assert (G : clip_spec p1 p2 (vpclip_loop (5 + fuel) p1 p2 (clipcode p1) (clipcode p2))).
  { apply H; [cbn [length]; lia| |exact Z1|exact Z2]. intros j J. unfold h, hs.
    destruct j as [|[|[|[|[|j]]]]]; cbn [In nth] in *; try (exfalso; tauto); lra. }
  destruct (vpclip_loop (5 + fuel) p1 p2 (clipcode p1) (clipcode p2)); exact G.
Qed.
Print Assumptions C92_pyramid_partial.
Lemma clipcode_eq : forall x y z b1 b2 b3 b4, ltb x (- z) = b1 -> ltb z x = b2 -> ltb y (- z) = b3 -> ltb z y = b4 ->
  clipcode (V x y z) = ((if b1 then 1 else if b2 then 2 else 0) + (if b3 then 4 else if b4 then 8 else 0))%N.
Proof. intros x y z b1 b2 b3 b4 <- <- <- <-. reflexivity. Qed.
Lemma ltb_yes : forall x y, x < y -> ltb x y = true.
Proof. intros x y L. ltbs H x y; [reflexivity|lra]. Qed.
Lemma ltb_no : forall x y, y <= x -> ltb x y = false.
Proof. intros x y L. ltbs H x y; [lra|reflexivity]. Qed.
Ltac code := etransitivity; [eapply clipcode_eq; first [apply ltb_yes; lra | apply ltb_no; lra] | reflexivity].
Lemma ndiv_eq : forall x y z, y <> 0 -> x = z * y -> ndiv x y = Some z.
Proof. intros x y z N ->. unfold ndiv. destruct (Req_EM_T y 0); [contradiction|]. f_equal. field. exact N. Qed.
Lemma step_1 : forall n p1 p2 c1 c2 p c, clip_point p1 p2 c1 = Some p -> clipcode p = c -> (c1 =? 0)%N = false -> N.land c1 c2 = 0%N ->
  vpclip_loop (S n) p1 p2 c1 c2 = vpclip_loop n p p2 c c2.
Proof. intros n p1 p2 c1 c2 p c E <- Z L. cbn [vpclip_loop]. rewrite Z, L. cbn [andb negb N.eqb]. rewrite E, N.eqb_refl. reflexivity. Qed.
Lemma step_2 : forall n p1 p2 c2 p c, clip_point p1 p2 c2 = Some p -> clipcode p = c -> (c2 =? 0)%N = false ->
  vpclip_loop (S n) p1 p2 0 c2 = vpclip_loop n p1 p 0 c.
Proof. intros n p1 p2 c2 p c E <- Z. cbn [vpclip_loop N.eqb]. rewrite Z. cbn [andb negb N.eqb N.land]. rewrite E. destruct c2; [discriminate|reflexivity]. Qed.
Lemma step_0 : forall n p1 p2, vpclip_loop (S n) p1 p2 0 0 = Shown p1 p2.
Proof. reflexivity. Qed.
(** evaluates [clip_point] with the quotient k *)
Ltac point k := unfold clip_point; cbn [N.testbit Pos.testbit Pos.pred_N N.pred Pos.pred_double vx vy vz]; rewrite (ndiv_eq _ _ k) by lra; cbv zeta; f_equal; f_equal; field.
(** a segment that leaves the pyramid to the right is cut at x = z = 2 *)
Example C92_pyramid_ex : VPCLIP 5 (V 0 0 1) (V 4 0 3) = Shown (V 0 0 1) (V 2 0 2).
Proof.
  unfold VPCLIP. assert (E1 : clipcode (V 0 0 1) = 0%N) by code. assert (E2 : clipcode (V 4 0 3) = 2%N) by code. rewrite E1, E2.
  rewrite (step_2 4 _ _ _ (V 2 0 2) 0%N); [apply step_0 | point (1 / 2) | code | reflexivity].
Qed.

(** With a point on or behind the plane of the eye the loop can leave the segment: from (1 0 0) to (0 0 -2), which has no
    visible point, it shows the point (2 0 2). *)
Theorem C92_pyramid_refuted : exists p1 p2 p q, (forall n, VPCLIP (4 + n) p1 p2 = Shown p q) /\
  (forall z, on_segment (Line p1 p2) z -> ~ in_view z) /\ in_view p /\ ~ on_segment (Line p1 p2) p.
Proof.
  exists (V 1 0 0), (V 0 0 (-2)), (V 2 0 2), (V 2 0 2). split; [intros n|].
  - unfold VPCLIP. cbn [Nat.add].
    assert (E1 : clipcode (V 1 0 0) = 2%N) by code. assert (E2 : clipcode (V 0 0 (-2)) = 5%N) by code. rewrite E1, E2.
    rewrite (step_1 _ _ _ _ _ (V 2 0 2) 0%N); [| point (-1) | code | reflexivity | reflexivity].
    rewrite (step_2 _ _ _ _ (V (2 / 3) 0 (- 2 / 3)) 6%N); [| point (2 / 3) | code | reflexivity].
    rewrite (step_2 _ _ _ _ (V 2 0 2) 0%N); [| point 0 | code | reflexivity].
    apply step_0.
  - split; [|split].
    + intros z [t [T ->]] [X Y]. unfold along in *. cbn [pvert nvert vx vy vz] in *. lra.
    + unfold in_view. cbn [vx vy vz]. lra.
    + intros [t [T E]]. unfold along in E. cbn [pvert nvert vx vy vz] in E. injection E. lra.
Qed.
Print Assumptions C92_pyramid_refuted.
(** And from (1 0 0) to (0 0 -1) it divides by zero. *)
Theorem C92_pyramid_division_refuted : exists p1 p2, (forall n, VPCLIP (S n) p1 p2 = Undefined) /\
  (forall z, on_segment (Line p1 p2) z -> ~ in_view z).
Proof.
  exists (V 1 0 0), (V 0 0 (-1)). split.
  - intros n. unfold VPCLIP. assert (E1 : clipcode (V 1 0 0) = 2%N) by code. assert (E2 : clipcode (V 0 0 (-1)) = 5%N) by code. rewrite E1, E2.
    cbn [vpclip_loop N.eqb Pos.eqb N.land Pos.land andb negb]. unfold clip_point. cbn [N.testbit Pos.testbit vx vy vz]. unfold ndiv.
    match goal with |- context [Req_EM_T ?x 0] => destruct (Req_EM_T x 0) as [_|N] end; [reflexivity|]. exfalso. apply N. ring.
  - intros z [t [T ->]] [X Y]. unfold along in *. cbn [pvert nvert vx vy vz] in *. lra.
Qed.
Print Assumptions C92_pyramid_division_refuted.
