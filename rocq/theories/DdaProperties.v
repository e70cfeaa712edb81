(** C90: a line drawn with integers. *)
From Coq Require Import Lia.
From Verif Require Import DdaModel.
Open Scope Z_scope.

(** ** Specification *)
(** the pixel lies on the line through the ends, to within half a pixel across *)
Definition near (x0 y0 x1 y1 : Z) (p : Z * Z) : Prop :=
  2 * Z.abs ((fst p - x0) * (y1 - y0) - (snd p - y0) * (x1 - x0)) <= Z.max (Z.abs (x1 - x0)) (Z.abs (y1 - y0)).
(** neighbours, also across a corner *)
Definition touch (p q : Z * Z) : Prop := Z.max (Z.abs (fst q - fst p)) (Z.abs (snd q - snd p)) = 1.
(** the way along the longer direction *)
Definition forward (x0 y0 x1 y1 : Z) (p q : Z * Z) : Prop :=
  if Z.abs (y1 - y0) <? Z.abs (x1 - x0) then fst q - fst p = Z.sgn (x1 - x0) else snd q - snd p = Z.sgn (y1 - y0).
Record straight (x0 y0 x1 y1 : Z) (l : list (Z * Z)) : Prop := {
  s_length : List.length l = Z.to_nat (Z.max (Z.abs (x1 - x0)) (Z.abs (y1 - y0)) + 1);
  s_first : nth 0 l (0, 0) = (x0, y0);
  s_last : last l (0, 0) = (x1, y1);
  s_steps : forall i, (S i < List.length l)%nat -> touch (nth i l (0, 0)) (nth (S i) l (0, 0)) /\ forward x0 y0 x1 y1 (nth i l (0, 0)) (nth (S i) l (0, 0));
  s_near : forall i, (i < List.length l)%nat -> near x0 y0 x1 y1 (nth i l (0, 0)) }.

(** ** Proofs *)
Definition sg (z : Z) : Z := if 0 <? z then 1 else -1.
Lemma sg_abs z : sg z * Z.abs z = z. Proof. unfold sg. destruct (Z.ltb_spec 0 z); lia. Qed.
Lemma sg_sgn z : z <> 0 -> sg z = Z.sgn z. Proof. unfold sg. destruct (Z.ltb_spec 0 z); lia. Qed.
Section Line.
Variables x0 y0 x1 y1 : Z.
Let DX := x1 - x0. Let DY := y1 - y0. Let A := Z.abs DX. Let B := Z.abs DY.
Let major := B <? A.
Let L := Z.max A B. Let M := Z.min A B.
(** the point after k steps of which m were across *)
Definition point (k m : Z) : Z * Z := if major then (x0 + sg DX * k, y0 + sg DY * m) else (x0 + sg DX * m, y0 + sg DY * k).
Definition at_step (k m : Z) (d : dda) : Prop :=
  (x d, y d) = point k m /\ dx d = DX /\ dy d = DY /\ err d = 2 * (k + 1) * M - (2 * m + 1) * L /\ errinc d = 2 * M /\ errdec d = 2 * (L - M) /\
  xyinc d = (if major then sg DY else sg DX) /\ length d = L + 1 /\ x_major d = major /\ count d = k /\ 2 * M - 2 * L <= err d <= 2 * M /\ 0 <= k.
Lemma init_ok : at_step 0 0 (init x0 y0 x1 y1).
Proof.
  unfold at_step, point, init. fold DX DY. fold A B. fold major. destruct major eqn:E; unfold major in E; cbn [x y dx dy err errinc errdec xyinc length x_major count]; [apply Z.ltb_lt in E|apply Z.ltb_ge in E]; rewrite ?Z.mul_0_r, ?Z.add_0_r; unfold L, M, A, B in *; repeat split; first [reflexivity|lia].
Qed.
Lemma next_step k m d : at_step k m d -> k < L + 1 -> exists d' m', next d = (d', Some (point k m)) /\ (m' = m \/ m' = m + 1) /\ at_step (k + 1) m' d'.
Proof.
  intros (P & D1 & D2 & E & I1 & I2 & X & Le & Mj & C & Bd & K) Hk. unfold next. cbn [length count x y x_major]. destruct (Z.ltb_spec (length d) (count d + 1)); [lia|]. rewrite Mj, P.
  assert (0 <= M <= L) by (unfold M, L, A, B; lia).
  destruct major eqn:Em; unfold update_x_major, update_y_major; cbn [err y x xyinc errdec errinc dx dy]; unfold point in P; rewrite Em in P; injection P as Px Py; (destruct (Z.ltb_spec 0 (err d)) as [Hp|Hp];
  [exists (mkDda (count d + 1) (if major then x d + sg DX else x d + sg DX) (if major then y d + sg DY else y d + sg DY) DX DY (err d - errdec d) (errinc d) (errdec d) (xyinc d) (length d) major), (m + 1)
  |exists (mkDda (count d + 1) (if major then x d + sg DX else x d) (if major then y d else y d + sg DY) DX DY (err d + errinc d) (errinc d) (errdec d) (xyinc d) (length d) major), m]); rewrite Em;
  (split; [rewrite ?D1, ?D2, ?X; unfold sg; cbn [x y length count x_major err errinc errdec xyinc]; rewrite ?Mj; reflexivity|]); (split; [auto|]);
  unfold at_step, point; rewrite Em; cbn [x y dx dy err errinc errdec xyinc length x_major count]; rewrite ?Px, ?Py; repeat split; try (f_equal; ring); try lia.
Qed.
Lemma next_end k m d : at_step k m d -> k = L + 1 -> exists d', next d = (d', None).
Proof. intros (P & D1 & D2 & E & I1 & I2 & X & Le & Mj & C & Bd & K) Hk. unfold next. cbn [length count]. destruct (Z.ltb_spec (length d) (count d + 1)); [|lia]. eexists. reflexivity. Qed.
(** the steps across, one after the other *)
Fixpoint pixels (k : Z) (ms : list Z) : list (Z * Z) := match ms with [] => [] | m :: r => point k m :: pixels (k + 1) r end.
Fixpoint climbs (k : Z) (ms : list Z) : Prop :=
  match ms with
  | [] => True
  | m :: r => 2 * Z.abs (k * M - m * L) <= L /\ match r with [] => True | m' :: _ => m' = m \/ m' = m + 1 end /\ climbs (k + 1) r
  end.
Lemma run_ok : forall n k m d fuel acc, at_step k m d -> Z.of_nat n = L + 1 - k -> (n < fuel)%nat ->
  exists ms, collect fuel d acc = Some (rev acc ++ pixels k ms) /\ List.length ms = n /\ climbs k ms /\ match ms with [] => True | m' :: _ => m' = m end.
Proof.
  induction n as [|n IH]; intros k m d fuel acc H Hn Hf; (destruct fuel as [|fuel]; [lia|]); cbn [collect].
  - destruct (next_end k m d H) as (d' & E); [lia|]. rewrite E. exists []. cbn [pixels]. rewrite app_nil_r. repeat split.
  - destruct (next_step k m d H) as (d' & m' & E & Hm & H'); [lia|]. rewrite E. destruct (IH (k + 1) m' d' fuel (point k m :: acc) H') as (ms & E' & Hl & Hc & Hh); [lia|lia|].
    exists (m :: ms). rewrite E'. cbn [rev pixels List.length climbs]. rewrite <- app_assoc. split; [reflexivity|]. split; [lia|]. split; [|reflexivity]. split.
    + destruct H as (_ & _ & _ & Ee & _ & _ & _ & _ & _ & _ & Bd & _). rewrite Ee in Bd. nia.
    + split; [|exact Hc]. destruct ms as [|m2 ms]; [exact Logic.I|]. rewrite Hh. exact Hm.
Qed.
Lemma pixels_length ms : forall k, List.length (pixels k ms) = List.length ms. Proof. induction ms as [|m r IH]; intros k; cbn; [reflexivity|]. rewrite IH. reflexivity. Qed.
Lemma pixels_nth ms : forall k i, (i < List.length ms)%nat -> nth i (pixels k ms) (0, 0) = point (k + Z.of_nat i) (nth i ms 0).
Proof. induction ms as [|m r IH]; intros k [|i] H; cbn [List.length pixels nth] in *; try lia; [f_equal; lia|]. rewrite IH by lia. f_equal. lia. Qed.
Lemma climbs_nth ms : forall k i, climbs k ms -> (i < List.length ms)%nat -> 2 * Z.abs ((k + Z.of_nat i) * M - nth i ms 0 * L) <= L.
Proof. induction ms as [|m r IH]; intros k [|i] H Hi; cbn [List.length climbs nth] in *; [lia|lia| |]; destruct H as (H1 & H2 & H3); [replace (k + Z.of_nat 0) with k by lia; exact H1|]. specialize (IH (k + 1) i H3 ltac:(lia)). replace (k + Z.of_nat (S i)) with (k + 1 + Z.of_nat i) by lia. exact IH. Qed.
Lemma climbs_step ms : forall k i, climbs k ms -> (S i < List.length ms)%nat -> nth (S i) ms 0 = nth i ms 0 \/ nth (S i) ms 0 = nth i ms 0 + 1.
Proof.
  induction ms as [|m r IH]; intros k i H Hi; cbn [List.length] in Hi; [lia|]. cbn [climbs] in H. destruct H as (H1 & H2 & H3). destruct i as [|i].
  - destruct r as [|m' r]; cbn [List.length] in Hi; [lia|]. exact H2.
  - apply (IH (k + 1) i H3). lia.
Qed.
Lemma straight_ok ms : List.length ms = Z.to_nat (L + 1) -> climbs 0 ms -> nth 0 ms 0 = 0 -> straight x0 y0 x1 y1 (pixels 0 ms).
Proof.
  intros Hl Hc H0. assert (0 <= M <= L) as HML by (unfold M, L, A, B; lia). pose proof (sg_abs DX) as SX. pose proof (sg_abs DY) as SY. fold A in SX. fold B in SY. assert (major = true /\ A = L /\ B = M /\ A <> 0 \/ major = false /\ A = M /\ B = L) as Hmaj.
  { unfold major, L, M. destruct (Z.ltb_spec B A); [left|right]; repeat split; try lia; unfold A, B in *; lia. }
  assert (forall z, sg z = 1 \/ sg z = -1) as Sg by (intros z; unfold sg; destruct (0 <? z); auto).
  split; rewrite ?pixels_length.
  - exact Hl.
  - rewrite pixels_nth by lia. rewrite H0. unfold point. destruct major; f_equal; lia.
  - assert (forall (l : list (Z * Z)) d, l <> [] -> last l d = nth (List.length l - 1) l d) as Hlast.
    { induction l as [|a l IH]; intros d Hn; [congruence|]. destruct l as [|b l]; [reflexivity|]. change (last (a :: b :: l) d) with (last (b :: l) d). rewrite IH by discriminate. cbn [List.length]. replace (S (S (List.length l)) - 1)%nat with (S (S (List.length l) - 1)) by lia. reflexivity. }
    rewrite Hlast by (destruct ms; [cbn in Hl; lia|discriminate]). rewrite pixels_length, pixels_nth by lia. pose proof (climbs_nth ms 0 (List.length ms - 1) Hc ltac:(lia)) as Hb.
    replace (0 + Z.of_nat (List.length ms - 1)) with L in * by lia. set (m := nth (List.length ms - 1) ms 0) in *. assert (L = 0 \/ m = M) as Hm. { destruct (Z.eq_dec L 0); [left; assumption|right]. nia. }
    unfold point. destruct Hmaj as [(-> & EA & EB & NA)|(-> & EA & EB)].
    + destruct Hm as [Hm|Hm]; [lia|]. rewrite Hm, <- EA, <- EB, SX, SY. unfold DX, DY. f_equal; lia.
    + destruct Hm as [Hm|Hm].
      * assert (m = 0) by (unfold m; rewrite Hl, Hm; exact H0). assert (DX = 0 /\ DY = 0) as [? ?] by (unfold L, A, B in Hm; lia). subst m. unfold DX, DY in *. f_equal; lia.
      * rewrite Hm, <- EA, <- EB, SX, SY. unfold DX, DY. f_equal; lia.
  - intros i Hi. rewrite !pixels_nth by lia. pose proof (climbs_step ms 0 i Hc Hi) as Hs. replace (0 + Z.of_nat (S i)) with (Z.of_nat i + 1) by lia. replace (0 + Z.of_nat i) with (Z.of_nat i) by lia.
    set (m := nth i ms 0) in *. set (m' := nth (S i) ms 0) in *. unfold touch, forward. fold DX DY. fold A B. fold major. unfold point.
    destruct Hmaj as [(-> & EA & EB & NA)|(-> & EA & EB)]; cbn [fst snd]; destruct (Sg DX) as [S1|S1], (Sg DY) as [S2|S2]; rewrite S1, S2; (split; [destruct Hs as [->| ->]; lia|]).
    all: first [assert (DX <> 0) by (unfold A in NA; lia); pose proof (sg_sgn DX ltac:(assumption)); lia | assert (DY <> 0) by (unfold L, A, B in *; lia); pose proof (sg_sgn DY ltac:(assumption)); lia].
  - intros i Hi. rewrite pixels_nth by exact Hi. pose proof (climbs_nth ms 0 i Hc Hi) as Hb. rewrite Z.add_0_l in *. set (m := nth i ms 0) in *. set (k := Z.of_nat i) in *. unfold near. fold DX DY. fold A B. fold L. unfold point.
    destruct Hmaj as [(-> & EA & EB & NA)|(-> & EA & EB)]; cbn [fst snd]; rewrite <- EA, <- EB in Hb.
    + replace ((x0 + sg DX * k - x0) * DY - (y0 + sg DY * m - y0) * DX) with (sg DX * sg DY * (k * B - m * A)) by (rewrite <- SX at 3; rewrite <- SY at 2; ring). destruct (Sg DX) as [-> | ->], (Sg DY) as [-> | ->]; lia.
    + replace ((x0 + sg DX * m - x0) * DY - (y0 + sg DY * k - y0) * DX) with (- (sg DX * sg DY * (k * A - m * B))) by (rewrite <- SX at 3; rewrite <- SY at 2; ring). destruct (Sg DX) as [-> | ->], (Sg DY) as [-> | ->]; lia.
Qed.
End Line.

(** dda-line draws a straight line between any two points. *)
Theorem C90_line : forall x0 y0 x1 y1 fuel, Z.max (Z.abs (x1 - x0)) (Z.abs (y1 - y0)) + 1 < Z.of_nat fuel ->
  exists l, dda_line fuel x0 y0 x1 y1 = Some l /\ straight x0 y0 x1 y1 l.
Proof.
  intros x0 y0 x1 y1 fuel Hf. destruct (run_ok x0 y0 x1 y1 (Z.to_nat (Z.max (Z.abs (x1 - x0)) (Z.abs (y1 - y0)) + 1)) 0 0 (init x0 y0 x1 y1) fuel [] (init_ok x0 y0 x1 y1)) as (ms & E & Hl & Hc & Hh); [lia|lia|].
  exists (pixels x0 y0 x1 y1 0 ms). split; [exact E|]. apply straight_ok; [exact Hl|exact Hc|]. destruct ms; [reflexivity|exact Hh].
Qed.
Print Assumptions C90_line.
Example C90_line_example : dda_line 20 1 1 6 (-1) = Some [(1, 1); (2, 1); (3, 0); (4, 0); (5, -1); (6, -1)] /\ dda_line 20 0 0 0 0 = Some [(0, 0)].
Proof. split; reflexivity. Qed.
(** The pixels depend on the direction: a line cannot be wiped out by drawing it backwards. *)
Theorem C90_direction_refuted : exists l l', dda_line 20 0 0 2 1 = Some l /\ dda_line 20 2 1 0 0 = Some l' /\ l = [(0, 0); (1, 0); (2, 1)] /\ l' = [(2, 1); (1, 1); (0, 0)].
Proof. do 2 eexists. repeat split; reflexivity. Qed.
Print Assumptions C90_direction_refuted.
