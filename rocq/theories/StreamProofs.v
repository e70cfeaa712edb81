(** Proofs for C43-C45. *)
From Verif Require Import StreamModel StreamSpec.

Lemma sub_refl a : sub a a.
Proof. induction a; constructor; auto. Qed.
Lemma sub_nil_l b : sub [] b.
Proof. induction b; constructor; auto. Qed.
Lemma sub_app a b c d : sub a b -> sub c d -> sub (a ++ c) (b ++ d).
Proof. intros H K. induction H; cbn [app]; try constructor; auto. Qed.
Lemma sub_trans a b c : sub a b -> sub b c -> sub a c.
Proof.
  intros H K. revert a H. induction K; intros a0 H; auto.
  - inversion H; subst; constructor; auto.
  - constructor. apply IHK. exact H.
Qed.
Lemma sub_firstn n l : sub (firstn n l) l.
Proof. revert n; induction l as [|x l IH]; intros [|n]; cbn [firstn]; try constructor; auto. apply sub_nil_l. Qed.

(** ** File output *)
Definition all (s : ostream) : list Z := sent s ++ buf s.
Definition full (os : list wans) : Prop := Forall (fun a => a = WAll) os.

Lemma flush_file s os : knd s = File ->
  exists ok s1 os1, flushstream s os = ODone ok s1 os1 /\ knd s1 = File /\ cap s1 = cap s /\ sub (all s1) (all s) /\
    (ok = true -> buf s1 = []) /\ (full os -> ok = true /\ all s1 = all s /\ full os1).
Proof.
  intros K. unfold flushstream. destruct (buf s) as [|b0 bs] eqn:B.
  { exists true, s, os. repeat (split; [first [reflexivity|assumption|apply sub_refl]|]).
    split; [intros _; exact B|auto]. }
  rewrite K. destruct os as [|a os'].
  - eexists _, _, _. split; [reflexivity|]. unfold all. cbn [knd cap sent buf]. rewrite app_nil_r, B.
    split; [reflexivity|]. split; [reflexivity|]. split; [apply sub_refl|]. auto.
  - destruct a as [|n|].
    + eexists _, _, _. split; [reflexivity|]. unfold all. cbn [knd cap sent buf]. rewrite app_nil_r, B.
      split; [reflexivity|]. split; [reflexivity|]. split; [apply sub_refl|]. split; [reflexivity|].
      intros F. inversion F; subst. auto.
    + eexists _, _, _. split; [reflexivity|]. unfold all. cbn [knd cap sent buf]. rewrite app_nil_r, B.
      split; [reflexivity|]. split; [reflexivity|]. split; [apply sub_app; [apply sub_refl|apply sub_firstn]|]. split; [reflexivity|].
      intros F. inversion F; subst. discriminate.
    + eexists _, _, _. split; [reflexivity|]. unfold all. split; [exact K|]. split; [reflexivity|]. split; [apply sub_refl|].
      split; [discriminate|]. intros F. inversion F; subst. discriminate.
Qed.

(** Make room: flush when the buffer is full. *)
Lemma room_file s os : knd s = File -> 0 < cap s -> count s <= cap s ->
  exists ok s1 os1, (if cap s <=? count s then flushstream s os else ODone true s os) = ODone ok s1 os1 /\
    knd s1 = File /\ cap s1 = cap s /\ count s1 <= cap s1 /\ sub (all s1) (all s) /\ (ok = true -> count s1 < cap s1) /\
    (full os -> ok = true /\ all s1 = all s /\ full os1).
Proof.
  intros K C L. destruct (Z.leb_spec (cap s) (count s)) as [H|H].
  - destruct (flush_file s os K) as (ok & s1 & os1 & E & K1 & C1 & S1 & B1 & F1).
    exists ok, s1, os1. split; [exact E|]. split; [exact K1|]. split; [exact C1|]. split; [|split; [exact S1|split; [|exact F1]]].
    + destruct ok.
      * unfold count. rewrite (B1 eq_refl), C1. cbn [length]. lia.
      * assert (s1 = s).
        { revert E. unfold flushstream. destruct (buf s); [discriminate|]. rewrite K. destruct os as [|[]]; intros E; inversion E; auto. }
        subst. exact L.
    + intros Ok. unfold count. rewrite (B1 Ok), C1. cbn [length]. lia.
  - exists true, s, os. repeat (split; [first [reflexivity|assumption|apply sub_refl]|]). split; [intros _; exact H|auto].
Qed.

Lemma all_add s l : all (addbytes s l) = all s ++ l.
Proof. unfold all. cbn [addbytes sent buf]. rewrite app_assoc. reflexivity. Qed.
Lemma count_add s l : count (addbytes s l) = count s + Z.of_nat (length l).
Proof. unfold count. cbn [addbytes buf]. rewrite app_length. lia. Qed.

Definition fgood (s : ostream) : Prop := knd s = File /\ 0 < cap s /\ count s <= cap s.

(** What a write of [l] does to a file stream *)
Definition fstep (s : ostream) (os : list wans) (l : list Z) (o : ores) : Prop :=
  exists ok s1 os1, o = ODone ok s1 os1 /\ fgood s1 /\ cap s1 = cap s /\ sub (all s1) (all s ++ l) /\
    (full os -> ok = true /\ all s1 = all s ++ l /\ full os1).

Lemma writech_file s os c : fgood s -> fstep s os [c] (writech s os c).
Proof.
  intros (K & C & L). unfold writech.
  destruct (room_file s os K C L) as (ok & s1 & os1 & -> & K1 & C1 & L1 & S1 & R1 & F1).
  destruct ok.
  - specialize (R1 eq_refl). destruct (Z.ltb_spec (count s1) (cap s1)); [|lia].
    exists true, (addbytes s1 [c]), os1. split; [reflexivity|].
    split; [split; [exact K1|split; [cbn [addbytes cap]; lia|rewrite count_add; cbn [addbytes cap length]; lia]]|].
    split; [exact C1|]. rewrite all_add. split; [apply sub_app; [exact S1|apply sub_refl]|].
    intros F. destruct (F1 F) as (_ & E & F2). rewrite E. auto.
  - exists false, s1, os1. split; [reflexivity|]. split; [split; [exact K1|split; lia]|]. split; [exact C1|].
    split; [|intros F; destruct (F1 F); discriminate].
    rewrite <- (app_nil_r (all s1)). apply sub_app; [exact S1|apply sub_nil_l].
Qed.

Lemma writestr_file fuel : forall s os mes, fgood s -> (length mes <= fuel)%nat ->
  fstep s os mes (writestr_loop fuel s os mes).
Proof.
  induction fuel as [|f IH]; intros s os mes (K & C & L) Fu.
  - destruct mes as [|m0 mes]; [|cbn [length] in Fu; lia].
    exists true, s, os. split; [reflexivity|]. split; [split; auto|]. split; [reflexivity|]. rewrite app_nil_r. split; [apply sub_refl|auto].
  - destruct mes as [|m0 mes].
    { exists true, s, os. split; [reflexivity|]. split; [split; auto|]. split; [reflexivity|]. rewrite app_nil_r. split; [apply sub_refl|auto]. }
    set (w := m0 :: mes) in *.
    assert (U : writestr_loop (S f) s os w =
      match (if cap s <=? count s then flushstream s os else ODone true s os) with
      | ODone true s1 os1 =>
          let n := Z.to_nat (Z.min (Z.of_nat (length w)) (cap s1 - count s1)) in
          writestr_loop f (addbytes s1 (firstn n w)) os1 (skipn n w)
      | o => o
      end) by reflexivity.
    rewrite U; clear U.
    destruct (room_file s os K C L) as (ok & s1 & os1 & -> & K1 & C1 & L1 & S1 & R1 & F1).
    destruct ok.
    + specialize (R1 eq_refl). cbv zeta.
      set (n := Z.to_nat (Z.min (Z.of_nat (length w)) (cap s1 - count s1))).
      assert (Hn : (1 <= n <= length w)%nat /\ Z.of_nat n <= cap s1 - count s1).
      { unfold n. subst w. cbn [length]. lia. }
      clearbody n.
      destruct (IH (addbytes s1 (firstn n w)) os1 (skipn n w)) as (ok2 & s2 & os2 & E2 & G2 & C2 & S2 & F2).
      { split; [exact K1|]. split; [cbn [addbytes cap]; lia|]. rewrite count_add, firstn_length. cbn [addbytes cap]. lia. }
      { rewrite skipn_length. lia. }
      exists ok2, s2, os2. split; [exact E2|]. split; [exact G2|]. split; [rewrite C2; exact C1|].
      rewrite all_add, <- app_assoc, firstn_skipn in S2, F2.
      split; [eapply sub_trans; [exact S2|apply sub_app; [exact S1|apply sub_refl]]|].
      intros F. destruct (F1 F) as (_ & E & Fo). destruct (F2 Fo) as (O2 & E3 & F3). rewrite E3, E. auto.
    + exists false, s1, os1. split; [reflexivity|]. split; [split; [exact K1|split; lia]|]. split; [exact C1|].
      split; [|intros F; destruct (F1 F); discriminate].
      rewrite <- (app_nil_r (all s1)). apply sub_app; [exact S1|apply sub_nil_l].
Qed.

Definition bytes_of (o : oop) : list Z := match o with OCh c => [c] | OStr l => l | OFlush => [] end.

Lemma ostep_file s os o : fgood s -> fstep s os (bytes_of o) (ostep s os o).
Proof.
  intros G. destruct o as [c|l|]; cbn [ostep bytes_of].
  - apply writech_file; exact G.
  - apply writestr_file; [exact G|auto].
  - destruct G as (K & C & L). destruct (flush_file s os K) as (ok & s1 & os1 & E & K1 & C1 & S1 & B1 & F1).
    exists ok, s1, os1. split; [exact E|]. rewrite app_nil_r. split; [|split; [exact C1|split; [exact S1|exact F1]]].
    split; [exact K1|]. split; [lia|]. destruct ok.
    + unfold count. rewrite (B1 eq_refl). cbn [length]. lia.
    + assert (s1 = s).
      { revert E. unfold flushstream. destruct (buf s); [discriminate|]. rewrite K. destruct os as [|[]]; intros E; inversion E; auto. }
      subst. exact L.
Qed.

Lemma orun_file ops : forall s os, fgood s -> fstep s os (written ops) (orun s os ops).
Proof.
  induction ops as [|o r IH]; intros s os G.
  - exists true, s, os. split; [reflexivity|]. split; [exact G|]. split; [reflexivity|].
    change (written []) with (@nil Z). rewrite app_nil_r. split; [apply sub_refl|auto].
  - cbn [orun]. destruct (ostep_file s os o G) as (ok & s1 & os1 & -> & G1 & C1 & S1 & F1).
    destruct (IH s1 os1 G1) as (ok2 & s2 & os2 & E2 & G2 & C2 & S2 & F2).
    exists ok2, s2, os2. split; [exact E2|]. split; [exact G2|]. split; [congruence|].
    change (written (o :: r)) with (bytes_of o ++ written r). rewrite app_assoc.
    split; [eapply sub_trans; [exact S2|apply sub_app; [exact S1|apply sub_refl]]|].
    intros F. destruct (F1 F) as (_ & E1 & Fo). destruct (F2 Fo) as (Ok & E3 & F3). rewrite E3, E1. auto.
Qed.

Theorem file_output_complete size ops os : 0 < size -> full os ->
  exists s1 os1, orun (file_output size) os (ops ++ [OFlush]) = ODone true s1 os1 /\ sent s1 = written ops.
Proof.
  intros Hs F.
  assert (G : fgood (file_output size)) by (split; [reflexivity|split; [exact Hs|unfold count; cbn; lia]]).
  destruct (orun_file ops (file_output size) os G) as (ok & s1 & os1 & E & G1 & _ & _ & F1).
  destruct (F1 F) as (-> & A1 & Fo). cbn [file_output all sent buf app] in A1.
  destruct (flush_file s1 os1 (proj1 G1)) as (ok2 & s2 & os2 & E2 & _ & _ & _ & B2 & F2).
  destruct (F2 Fo) as (-> & A2 & _). specialize (B2 eq_refl).
  exists s2, os2. split.
  - clear A1 F1 G. revert E. generalize (file_output size) os. induction ops as [|o r IH]; intros s os' E.
    + cbn [orun app] in *. inversion E; subst. cbn [ostep]. rewrite E2. reflexivity.
    + cbn [orun app] in *. destruct (ostep s os' o); try discriminate E. apply IH. exact E.
  - unfold all in A1, A2. rewrite B2, app_nil_r in A2. rewrite A2. exact A1.
Qed.

Theorem file_output_order size ops os : 0 < size ->
  exists ok s1 os1, orun (file_output size) os ops = ODone ok s1 os1 /\ sub (sent s1 ++ buf s1) (written ops).
Proof.
  intros Hs.
  assert (G : fgood (file_output size)) by (split; [reflexivity|split; [exact Hs|unfold count; cbn; lia]]).
  destruct (orun_file ops (file_output size) os G) as (ok & s1 & os1 & E & _ & _ & S1 & _).
  exists ok, s1, os1. split; [exact E|exact S1].
Qed.

(** ** String output *)
Definition sgood (s : ostream) : Prop := knd s = Str /\ 0 < cap s /\ count s <= cap s.

Definition sstep (s : ostream) (os : list wans) (l : list Z) (o : ores) : Prop :=
  (exists s1, o = ODone true s1 os /\ sgood s1 /\ buf s1 = buf s ++ l) \/
  (o = OLong /\ 1000000 < count s + Z.of_nat (length l)).

Lemma room_str s os : sgood s ->
  (exists s1, (if cap s <=? count s then flushstream s os else ODone true s os) = ODone true s1 os /\
     knd s1 = Str /\ buf s1 = buf s /\ count s1 < cap s1 /\ 0 < cap s1) \/
  ((if cap s <=? count s then flushstream s os else ODone true s os) = OLong /\ 1000000 <= count s).
Proof.
  intros (K & C & L). destruct (Z.leb_spec (cap s) (count s)) as [H|H].
  - unfold flushstream. destruct (buf s) as [|b bs] eqn:B.
    { unfold count in H. rewrite B in H. cbn [length] in H. lia. }
    rewrite K. destruct (Z.eqb_spec (cap s) (count s)) as [E|E]; [|lia].
    destruct (Z.leb_spec 1000000 (cap s)) as [M|M]; [right; split; [reflexivity|lia]|].
    left. eexists. split; [reflexivity|]. unfold count in *. cbn [knd buf cap]. rewrite B in *.
    split; [reflexivity|]. split; [reflexivity|]. lia.
  - left. exists s. auto.
Qed.

Lemma writech_str s os c : sgood s -> sstep s os [c] (writech s os c).
Proof.
  intros G. unfold writech. destruct (room_str s os G) as [(s1 & -> & K1 & B1 & L1 & C1)|[-> M]].
  - destruct (Z.ltb_spec (count s1) (cap s1)); [|lia]. left. exists (addbytes s1 [c]). split; [reflexivity|].
    split; [|cbn [addbytes buf]; rewrite B1; reflexivity].
    split; [exact K1|]. split; [exact C1|]. rewrite count_add. cbn [addbytes cap length]. lia.
  - right. split; [reflexivity|]. cbn [length]. lia.
Qed.

Lemma writestr_str fuel : forall s os mes, sgood s -> (length mes <= fuel)%nat ->
  sstep s os mes (writestr_loop fuel s os mes).
Proof.
  induction fuel as [|f IH]; intros s os mes G Fu.
  - destruct mes as [|m0 mes]; [|cbn [length] in Fu; lia]. left. exists s. rewrite app_nil_r. auto.
  - destruct mes as [|m0 mes]. { left. exists s. rewrite app_nil_r. auto. }
    set (w := m0 :: mes) in *.
    assert (U : writestr_loop (S f) s os w =
      match (if cap s <=? count s then flushstream s os else ODone true s os) with
      | ODone true s1 os1 =>
          let n := Z.to_nat (Z.min (Z.of_nat (length w)) (cap s1 - count s1)) in
          writestr_loop f (addbytes s1 (firstn n w)) os1 (skipn n w)
      | o => o
      end) by reflexivity.
    rewrite U; clear U.
    destruct (room_str s os G) as [(s1 & -> & K1 & B1 & L1 & C1)|[-> M]].
    + cbv zeta. set (n := Z.to_nat (Z.min (Z.of_nat (length w)) (cap s1 - count s1))).
      assert (Hn : (1 <= n <= length w)%nat /\ Z.of_nat n <= cap s1 - count s1).
      { unfold n. subst w. cbn [length]. lia. }
      clearbody n.
      destruct (IH (addbytes s1 (firstn n w)) os (skipn n w)) as [(s2 & E2 & G2 & B2)|[E2 M2]].
      { split; [exact K1|]. split; [cbn [addbytes cap]; lia|]. rewrite count_add, firstn_length. cbn [addbytes cap]. lia. }
      { rewrite skipn_length. lia. }
      * left. exists s2. split; [exact E2|]. split; [exact G2|]. rewrite B2. cbn [addbytes buf].
        rewrite <- app_assoc, firstn_skipn, B1. reflexivity.
      * right. split; [exact E2|]. rewrite count_add in M2. unfold count in *. rewrite B1 in M2.
        rewrite firstn_length, skipn_length in M2. lia.
    + right. split; [reflexivity|]. subst w. cbn [length]. lia.
Qed.

Lemma ostep_str s os o : sgood s -> sstep s os (bytes_of o) (ostep s os o) \/
  (o = OFlush /\ ostep s os o = OLong /\ 1000000 <= count s).
Proof.
  intros G. destruct o as [c|l|]; cbn [ostep bytes_of].
  - left. apply writech_str; exact G.
  - left. apply writestr_str; [exact G|auto].
  - destruct G as (K & C & L). unfold flushstream. destruct (buf s) as [|b bs] eqn:B.
    { left. left. exists s. rewrite app_nil_r. split; [reflexivity|]. split; [split; auto|reflexivity]. }
    rewrite K. destruct (Z.eqb_spec (cap s) (count s)) as [E|E].
    + destruct (Z.leb_spec 1000000 (cap s)) as [M|M]; [right; split; [reflexivity|split; [reflexivity|lia]]|].
      left. left. eexists. split; [reflexivity|]. cbn [buf]. rewrite app_nil_r. split; [|congruence].
      unfold sgood, count in *. cbn [knd cap buf]. rewrite B in *. split; [reflexivity|]. lia.
    + left. left. exists s. rewrite app_nil_r. split; [reflexivity|]. split; [split; auto|reflexivity].
Qed.

Lemma orun_str ops : forall s os, sgood s ->
  (exists s1, orun s os ops = ODone true s1 os /\ sgood s1 /\ buf s1 = buf s ++ written ops) \/
  (orun s os ops = OLong /\ 1000000 <= count s + Z.of_nat (length (written ops))).
Proof.
  induction ops as [|o r IH]; intros s os G.
  - left. exists s. change (written []) with (@nil Z). rewrite app_nil_r. auto.
  - cbn [orun]. change (written (o :: r)) with (bytes_of o ++ written r).
    destruct (ostep_str s os o G) as [[(s1 & -> & G1 & B1)|[-> M]]|(Eo & -> & M)].
    + destruct (IH s1 os G1) as [(s2 & E2 & G2 & B2)|[E2 M2]].
      * left. exists s2. rewrite app_assoc, <- B1. auto.
      * right. split; [exact E2|]. unfold count in *. rewrite B1, app_length in M2. rewrite app_length. lia.
    + right. split; [reflexivity|]. rewrite app_length. lia.
    + right. split; [reflexivity|]. lia.
Qed.

Theorem string_output_complete size ops os : 0 < size -> Z.of_nat (length (written ops)) < 1000000 ->
  exists s1, orun (string_output size) os ops = ODone true s1 os /\ get_output_stream_string s1 = written ops.
Proof.
  intros Hs L.
  assert (G : sgood (string_output size)) by (split; [reflexivity|split; [exact Hs|unfold count; cbn; lia]]).
  destruct (orun_str ops _ os G) as [(s1 & E & _ & B)|[_ M]].
  - exists s1. split; [exact E|exact B].
  - unfold count in M. cbn [string_output buf length] in M. lia.
Qed.

Theorem string_output_or_error size ops os : 0 < size ->
  (exists s1, orun (string_output size) os ops = ODone true s1 os /\ get_output_stream_string s1 = written ops) \/
  orun (string_output size) os ops = OLong.
Proof.
  intros Hs.
  assert (G : sgood (string_output size)) by (split; [reflexivity|split; [exact Hs|unfold count; cbn; lia]]).
  destruct (orun_str ops _ os G) as [(s1 & E & _ & B)|[E _]]; [left; exists s1|right]; auto.
Qed.

(** ** Input *)
Lemma nth_skipn_head (l : list Z) : forall i n, (i < length l)%nat -> (0 < n)%nat ->
  firstn n (skipn i l) = nth i l 0 :: firstn (n - 1) (skipn (S i) l).
Proof.
  induction l as [|x l IH]; intros i n H N; [cbn [length] in H; lia|].
  destruct i as [|i].
  - destruct n as [|n]; [lia|]. cbn [skipn firstn nth]. rewrite Nat.sub_succ, Nat.sub_0_r. reflexivity.
  - change (skipn (S i) (x :: l)) with (skipn i l). change (skipn (S (S i)) (x :: l)) with (skipn (S i) l).
    cbn [nth]. apply IH; [cbn [length] in H; lia|exact N].
Qed.

Lemma readch_pending s : good_input s -> exists c s1, readch s = (c, s1) /\ good_input s1 /\
  match pending s with
  | [] => c = None /\ pending s1 = []
  | e :: r => c = e /\ pending s1 = r
  end /\
  (forall x, c = Some x -> (1 <= icount s1)%nat /\ (icount s1 <= itail s1)%nat /\ nth (icount s1 - 1) (chars s1) 0 = x).
Proof.
  intros ((L1 & L2) & Fb). unfold readch. destruct (Nat.leb_spec (itail s) (icount s)) as [H|H].
  - assert (P0 : pending s = events_of (src s)).
    { unfold pending. replace (itail s - icount s)%nat with 0%nat by lia. reflexivity. }
    rewrite P0. destruct (src s) as [|blk r] eqn:Es.
    + exists None, s. split; [reflexivity|]. split; [split; [lia|rewrite Es; constructor]|]. split; [|discriminate].
      change (events_of []) with (@nil event). split; [reflexivity|]. rewrite P0, ?Es. reflexivity.
    + inversion Fb as [|? ? Hb Fr]; subst. destruct blk as [|b0 bs].
      * eexists _, _. split; [reflexivity|]. split; [split; [cbn [icount itail chars]; lia|exact Fr]|]. split; [|discriminate].
        change (events_of ([] :: r)) with (None :: events_of r). split; [reflexivity|].
        unfold pending. cbn [icount itail chars src]. replace (itail s - icount s)%nat with 0%nat by lia. reflexivity.
      * assert (Lc : length ((b0 :: bs) ++ skipn (length (b0 :: bs)) (chars s)) = length (chars s)).
        { rewrite app_length, skipn_length. cbn [length] in *. lia. }
        eexists _, _. split; [reflexivity|].
        split; [split; cbn [icount itail chars src]; [rewrite Lc; cbn [length] in *; lia|rewrite Lc; exact Fr]|].
        split.
        -- change (events_of ((b0 :: bs) :: r)) with (Some b0 :: map Some bs ++ events_of r). split; [reflexivity|].
           unfold pending. cbn [icount itail chars src]. f_equal. f_equal.
           cbn [length skipn app]. rewrite Nat.sub_succ, Nat.sub_0_r.
           rewrite firstn_app. rewrite Nat.sub_diag. cbn [firstn]. rewrite app_nil_r. apply firstn_all.
        -- intros x Hx. cbn [icount itail chars]. inversion Hx; subst. split; [lia|]. split; [cbn [length]; lia|]. reflexivity.
  - assert (P0 : pending s = Some (nth (icount s) (chars s) 0) :: map Some (firstn (itail s - icount s - 1) (skipn (S (icount s)) (chars s))) ++ events_of (src s)).
    { unfold pending. rewrite nth_skipn_head by lia. reflexivity. }
    eexists _, _. split; [reflexivity|]. rewrite P0.
    split; [split; cbn [icount itail chars src]; [lia|exact Fb]|]. split.
    + split; [reflexivity|]. unfold pending. cbn [icount itail chars src].
      replace (itail s - S (icount s))%nat with (itail s - icount s - 1)%nat by lia. reflexivity.
    + intros x Hx. cbn [icount itail chars]. inversion Hx; subst. split; [lia|]. split; [lia|]. rewrite Nat.sub_succ, Nat.sub_0_r. reflexivity.
Qed.

Lemma upd_same l : forall k c, (k < length l)%nat -> nth k l 0 = c -> upd l k c = l.
Proof.
  induction l as [|x l IH]; intros k c H N; [cbn [length] in H; lia|].
  destruct k as [|k]; unfold upd in *.
  - cbn [nth] in N. subst. reflexivity.
  - cbn [nth] in N. cbn [firstn app]. change (skipn (S (S k)) (x :: l)) with (skipn (S k) l).
    f_equal. apply IH; [cbn [length] in H; lia|exact N].
Qed.

Definition readable_back (s : istream) (x : Z) : Prop :=
  (1 <= icount s)%nat /\ (icount s <= itail s)%nat /\ nth (icount s - 1) (chars s) 0 = x.

Lemma unreadch_pending s x : good_input s -> readable_back s x ->
  good_input (unreadch s x) /\ pending (unreadch s x) = Some x :: pending s.
Proof.
  intros ((L1 & L2) & Fb) (P1 & _ & N). unfold unreadch. destruct (icount s) as [|k] eqn:Ei; [lia|].
  rewrite Nat.sub_succ, Nat.sub_0_r in N.
  rewrite upd_same by (auto; lia). split; [split; cbn [icount itail chars src]; [lia|exact Fb]|].
  unfold pending. cbn [icount itail chars src]. rewrite Ei.
  rewrite (nth_skipn_head (chars s) k) by lia. rewrite N. cbn [map app].
  replace (itail s - k - 1)%nat with (itail s - S k)%nat by lia. reflexivity.
Qed.

Lemma peekch_pending s : good_input s -> exists c s1, peekch s = (c, s1) /\ good_input s1 /\
  match pending s with
  | [] => c = None /\ pending s1 = []
  | None :: r => c = None /\ pending s1 = r
  | Some x :: r => c = Some x /\ pending s1 = pending s
  end.
Proof.
  intros G. unfold peekch. destruct (readch_pending s G) as (c & s1 & -> & G1 & P & B).
  destruct (pending s) as [|e r].
  - destruct P as (-> & P). exists None, s1. auto.
  - destruct P as (-> & P). destruct e as [x|].
    + destruct (unreadch_pending s1 x G1 (B x eq_refl)) as (G2 & P2). exists (Some x), (unreadch s1 x).
      rewrite P2, P. auto.
    + exists None, s1. auto.
Qed.

Lemma strip_cr_chomp cb l : strip_cr (rev l ++ cb) = chomp (rev cb ++ l).
Proof.
  unfold chomp. rewrite rev_app_distr, rev_involutive. unfold strip_cr.
  destruct (rev l ++ cb) as [|x r] eqn:E.
  - destruct l as [|y l]; [|cbn [rev] in E; destruct (rev l); discriminate E].
    cbn [rev app] in E. subst. reflexivity.
  - assert (R : rev (x :: r) = rev cb ++ l) by (rewrite <- E, rev_app_distr, rev_involutive; reflexivity).
    rewrite R. reflexivity.
Qed.

Lemma readline_pending fuel : forall s cb l some rest, good_input s -> line (pending s) = (l, some, rest) ->
  (length l < fuel)%nat -> exists s1,
  readline_loop fuel s cb = Some (if (some || negb (Nat.eqb (length cb) 0))%bool then Some (chomp (rev cb ++ l)) else None, s1) /\
  good_input s1 /\ pending s1 = rest.
Proof.
  induction fuel as [|f IH]; intros s cb l some rest G E Fu; [lia|].
  cbn [readline_loop]. destruct (readch_pending s G) as (c & s1 & -> & G1 & P & B).
  assert (X : forall r : list Z, (match cb with [] => Some (None, s1) | _ => Some (Some (strip_cr cb), s1) end) =
     Some (if negb (Nat.eqb (length cb) 0) then Some (chomp (rev cb ++ [])) else None, s1)).
  { intros _. destruct cb as [|c0 cb']; [reflexivity|]. rewrite <- strip_cr_chomp. reflexivity. }
  destruct (pending s) as [|e r] eqn:Ep.
  - destruct P as (-> & P). cbn [line] in E. inversion E; subst l some rest. cbn [orb]. exists s1.
    split; [apply X; exact []|auto].
  - destruct P as (-> & P). destruct e as [x|].
    + cbn [line] in E. destruct (Z.eqb_spec x 10) as [Ex|Ex].
      * inversion E; subst l some rest. exists s1. cbn [orb]. split; [|auto].
        rewrite <- strip_cr_chomp. reflexivity.
      * destruct (line r) as [[l2 s2] r2] eqn:El. inversion E; subst l some rest.
        destruct (IH s1 (x :: cb) l2 s2 r2 G1) as (s3 & E3 & G3 & P3); [rewrite P; exact El|cbn [length] in Fu; lia|].
        exists s3. split; [|auto]. rewrite E3. cbn [length Nat.eqb negb orb rev]. rewrite Bool.orb_true_r, <- app_assoc. reflexivity.
    + cbn [line] in E. inversion E; subst l some rest. cbn [orb]. exists s1. split; [apply X; exact []|auto].
Qed.

Lemma line_short_app a : forall b l1 s1 r1 l2 s2 r2, line b = (l2, s2, r2) -> line (map Some a ++ b) = (l1, s1, r1) ->
  (length l1 <= length a + length l2)%nat.
Proof.
  induction a as [|x a IH]; intros b l1 s1 r1 l2 s2 r2 E2 E1; cbn [map app] in E1.
  - rewrite E2 in E1. inversion E1; subst. lia.
  - cbn [line] in E1. destruct (x =? 10); [inversion E1; cbn [length]; lia|].
    destruct (line (map Some a ++ b)) as [[l3 s3] r3] eqn:E3. inversion E1; subst.
    pose proof (IH _ _ _ _ _ _ _ E2 E3). cbn [length]. lia.
Qed.

Lemma line_short_events bs : forall l s r, line (events_of bs) = (l, s, r) -> (length l <= length (concat bs))%nat.
Proof.
  induction bs as [|b bs IH]; intros l s r E.
  - cbn in E. inversion E; subst. cbn [length]. lia.
  - change (events_of (b :: bs)) with ((match b with [] => [None] | _ => map Some b end) ++ events_of bs) in E.
    cbn [concat]. rewrite app_length. destruct b as [|b0 b].
    + cbn [app line] in E. inversion E; subst. cbn [length]. lia.
    + destruct (line (events_of bs)) as [[l2 s2] r2] eqn:E2.
      pose proof (line_short_app _ _ _ _ _ _ _ _ E2 E). pose proof (IH _ _ _ eq_refl). lia.
Qed.

Lemma line_short s l b r : line (pending s) = (l, b, r) -> (length l <= total s)%nat.
Proof.
  intros E. unfold pending in E. destruct (line (events_of (src s))) as [[l2 s2] r2] eqn:E2.
  pose proof (line_short_app _ _ _ _ _ _ _ _ E2 E) as H. pose proof (line_short_events _ _ _ _ E2) as K.
  rewrite firstn_length, skipn_length in H. unfold total. lia.
Qed.

Theorem irun_ispec ops : forall s last, good_input s -> (forall x, last = Some x -> readable_back s x) ->
  irun s last ops = ispec (pending s) last ops.
Proof.
  induction ops as [|o r IH]; intros s last G B; [reflexivity|]. destruct o; cbn [irun ispec].
  - destruct (readch_pending s G) as (c & s1 & -> & G1 & P & B1). destruct (pending s) as [|e ev].
    + destruct P as (-> & P). f_equal. rewrite <- P. apply IH; [exact G1|discriminate].
    + destruct P as (-> & P). f_equal. rewrite <- P. apply IH; [exact G1|exact B1].
  - destruct last as [c|].
    + destruct (unreadch_pending s c G (B c eq_refl)) as (G1 & P1). f_equal. rewrite <- P1. apply IH; [exact G1|discriminate].
    + f_equal. apply IH; [exact G|discriminate].
  - destruct (peekch_pending s G) as (c & s1 & -> & G1 & P). destruct (pending s) as [|[x|] ev].
    + destruct P as (-> & P). f_equal. rewrite <- P. apply IH; [exact G1|discriminate].
    + destruct P as (-> & P). f_equal. rewrite <- P. apply IH; [exact G1|discriminate].
    + destruct P as (-> & P). f_equal. rewrite <- P. apply IH; [exact G1|discriminate].
  - destruct (line (pending s)) as [[l b] rest] eqn:El. unfold readline.
    destruct (readline_pending (S (total s)) s [] l b rest G El) as (s1 & -> & G1 & P1).
    { pose proof (line_short _ _ _ _ El). lia. }
    cbn [length Nat.eqb negb rev app]. rewrite Bool.orb_false_r. f_equal. rewrite <- P1. apply IH; [exact G1|discriminate].
Qed.
