(** Proofs about MatModel: loops on vectors that may share their memory. *)
From Coq Require Import List Arith Bool Lia.
From Verif Require Import MatModel MatSpec.
Import ListNotations.

Section Proofs.
Variables (F : Type) (zero one : F) (add sub mul div : F -> F -> F) (neg sqrt : F -> F).
Notation state := (state F). Notation elt := (elt zero). Notation ar := (ar F). Notation buf := (buf F).
Notation bind := (MatModel.bind F).

Lemma bind_done {A B} (m : M F A) (k : A -> M F B) s a s' : m s = Done F a s' -> bind m k s = k a s'.
Proof. intros E. unfold MatModel.bind. rewrite E. reflexivity. Qed.
Lemma set_nth_length (l : list F) i x : length (set_nth F l i x) = length l.
Proof. revert i. induction l as [|y l IH]; intros [|i]; cbn; auto. Qed.
Lemma nth_set_nth (l : list F) i x j : i < length l -> nth j (set_nth F l i x) zero = if j =? i then x else nth j l zero.
Proof.
  revert i j. induction l as [|y l IH]; intros i j H; [cbn in H; lia|]. destruct i; destruct j; cbn; auto.
  apply IH. cbn in H. lia.
Qed.
Lemma get_eq v i (s : state) : i < length (ar s v) -> get F v i s = Done F (elt s v i) s.
Proof. intros H. unfold get, MatSpec.elt. rewrite (nth_error_nth' _ zero H). reflexivity. Qed.
Lemma get_buf_eq i (s : state) : i < length (buf s) -> get_buf F i s = Done F (nth i (buf s) zero) s.
Proof. intros H. unfold get_buf. rewrite (nth_error_nth' _ zero H). reflexivity. Qed.
Lemma put_buf_eq i x (s : state) : i < length (buf s) -> put_buf F i x s = Done F tt (St F (ar s) (set_nth F (buf s) i x)).
Proof. intros H. unfold put_buf. apply Nat.ltb_lt in H. rewrite H. reflexivity. Qed.

(** ** The state of a computation that writes into [r]: elements in [D] have the final value [L], those in [U] the old *)
Definition part (s0 s : state) (r : nat) (L : nat -> F) (D U : nat -> Prop) : Prop :=
  (forall v, v <> r -> ar s v = ar s0 v) /\ length (ar s r) = length (ar s0 r) /\
  (forall x, x < length (ar s0 r) -> D x -> elt s r x = L x) /\ (forall x, U x -> elt s r x = elt s0 r x).
Lemma part_start s0 s r L (D U : nat -> Prop) : (forall v, ar s v = ar s0 v) -> (forall x, D x -> False) -> part s0 s r L D U.
Proof. intros E H. unfold part, MatSpec.elt. rewrite (E r). split; [auto|split; [auto|split; [intros x _ Hx; destruct (H x Hx)|auto]]]. Qed.
Lemma part_length s0 s r L D U v : part s0 s r L D U -> length (ar s v) = length (ar s0 v).
Proof. intros (A & B & _). destruct (Nat.eq_dec v r) as [->|H]; [exact B|rewrite (A v H); reflexivity]. Qed.
Lemma part_elt s0 s r L D U v i : part s0 s r L D U -> (v = r -> U i) -> elt s v i = elt s0 v i.
Proof.
  intros (A & B & C & E) H. destruct (Nat.eq_dec v r) as [->|Hn]; [apply E; auto|]. unfold MatSpec.elt. rewrite (A v Hn). reflexivity.
Qed.
Lemma part_get s0 s r L D U v i : part s0 s r L D U -> (v = r -> U i) -> i < length (ar s0 v) ->
  get F v i s = Done F (elt s0 v i) s.
Proof.
  intros P H Hi. rewrite get_eq by (rewrite (part_length _ _ _ _ _ _ _ P); exact Hi). rewrite (part_elt _ _ _ _ _ _ _ _ P H). reflexivity.
Qed.
Lemma part_weaken s0 s r L (D U D' U' : nat -> Prop) : part s0 s r L D U -> (forall x, D' x -> D x) -> (forall x, U' x -> U x) ->
  part s0 s r L D' U'.
Proof. intros (A & B & C & E) H1 H2. split; [exact A|split; [exact B|split; auto]]. Qed.
Lemma part_put s0 s r L (D U D' U' : nat -> Prop) i : part s0 s r L D U -> i < length (ar s0 r) ->
  (forall x, x < length (ar s0 r) -> D' x -> D x \/ x = i) -> (forall x, U' x -> U x /\ x <> i) ->
  exists s', put F r i (L i) s = Done F tt s' /\ part s0 s' r L D' U' /\ buf s' = buf s.
Proof.
  intros P Hi HD HU. pose proof (part_length _ _ _ _ _ _ r P) as Hl. unfold put.
  assert (i <? length (ar s r) = true) as Hb by (apply Nat.ltb_lt; lia). rewrite Hb.
  eexists. split; [reflexivity|]. split; [|reflexivity]. destruct P as (A & B & C & E).
  split; [|split; [|split]]; cbn [MatModel.ar].
  - intros v Hv. apply Nat.eqb_neq in Hv. rewrite Hv. apply A. apply Nat.eqb_neq. exact Hv.
  - rewrite Nat.eqb_refl, set_nth_length. exact B.
  - intros x Hx Dx. unfold MatSpec.elt. cbn [MatModel.ar]. rewrite Nat.eqb_refl, nth_set_nth by lia.
    destruct (Nat.eqb_spec x i) as [->|Hn]; [reflexivity|]. apply C; [exact Hx|]. destruct (HD x Hx Dx); [assumption|contradiction].
  - intros x Ux. destruct (HU x Ux) as [U1 U2]. unfold MatSpec.elt. cbn [MatModel.ar]. rewrite Nat.eqb_refl, nth_set_nth by lia.
    apply Nat.eqb_neq in U2. rewrite U2. apply E. exact U1.
Qed.

(** ** Loops *)
Lemma for_inv (P : nat -> state -> Prop) body n : forall from s,
  (forall i s, from <= i -> i < from + n -> P i s -> exists s', body i s = Done F tt s' /\ P (S i) s') -> P from s ->
  exists s', for_ F n from body s = Done F tt s' /\ P (from + n) s'.
Proof.
  induction n as [|n IH]; intros from s H H0; cbn [for_].
  - exists s. rewrite Nat.add_0_r. split; [reflexivity|exact H0].
  - destruct (H from s (le_n _) ltac:(lia) H0) as (s1 & E1 & H1). rewrite (bind_done _ _ _ _ _ E1).
    destruct (IH (S from) s1) as (s2 & E2 & H2); [|exact H1|].
    + intros i s' Hi1 Hi2. apply H; lia.
    + exists s2. split; [exact E2|]. rewrite Nat.add_succ_r. exact H2.
Qed.
Lemma acc_inv (P : nat -> F -> state -> Prop) body n : forall from x s,
  (forall i x s, from <= i -> i < from + n -> P i x s -> exists y s', body i x s = Done F y s' /\ P (S i) y s') -> P from x s ->
  exists y s', acc F n from body x s = Done F y s' /\ P (from + n) y s'.
Proof.
  induction n as [|n IH]; intros from x s H H0; cbn [acc].
  - exists x, s. rewrite Nat.add_0_r. split; [reflexivity|exact H0].
  - destruct (H from x s (le_n _) ltac:(lia) H0) as (y & s1 & E1 & H1). rewrite (bind_done _ _ _ _ _ E1).
    destruct (IH (S from) y s1) as (z & s2 & E2 & H2); [|exact H1|].
    + intros i x' s' Hi1 Hi2. apply H; lia.
    + exists z, s2. split; [exact E2|]. rewrite Nat.add_succ_r. exact H2.
Qed.
(** an accumulation that only reads *)
Lemma acc_dot f g body n s : (forall k x, k < n -> body k x s = Done F (add x (mul (f k) (g k))) s) ->
  acc F n 0 body zero s = Done F (dot zero add mul n f g) s.
Proof.
  intros H. destruct (acc_inv (fun k x s' => s' = s /\ x = dot zero add mul k f g) body n 0 zero s) as (y & s' & E & -> & ->).
  - intros i x s1 _ Hi [-> ->]. eexists. exists s. split; [apply H; exact Hi|]. split; reflexivity.
  - split; reflexivity.
  - exact E.
Qed.
(** a loop that stores element after element *)
Lemma for_fill r L n body (s0 s1 : state) : n <= length (ar s0 r) -> (forall v, ar s1 v = ar s0 v) ->
  (forall i s, i < n -> part s0 s r L (fun x => x < i) (fun x => i <= x) -> body i s = put F r i (L i) s) ->
  exists s', for_ F n 0 body s1 = Done F tt s' /\ part s0 s' r L (fun x => x < n) (fun x => n <= x).
Proof.
  intros Hn E H. destruct (for_inv (fun i s => part s0 s r L (fun x => x < i) (fun x => i <= x)) body n 0 s1) as (s' & E' & P).
  - intros i s _ Hi P. rewrite (H i s Hi P).
    destruct (part_put _ _ _ _ _ _ (fun x => x < S i) (fun x => S i <= x) i P) as (s' & E' & P' & _); [lia|lia|lia|].
    exists s'. split; assumption.
  - apply part_start; [exact E|lia].
  - exists s'. split; assumption.
Qed.
Lemma part_delivers {A} (a : A) s0 s r L n : part s0 s r L (fun x => x < n) (fun x => n <= x) -> n <= length (ar s0 r) ->
  delivers zero a r n L s0 (Done F a s).
Proof.
  intros (P1 & P2 & P3 & P4) Hn. split; [reflexivity|split; [exact P1|split; [exact P2|split; [|exact P4]]]].
  intros i Hi. apply P3; lia.
Qed.

(** ** Vectors *)
Lemma ckvsize_eq a b (s : state) : length (ar s a) = length (ar s b) -> ckvsize F a b s = Done F (length (ar s a)) s.
Proof. intros H. unfold ckvsize, vecsize, MatModel.bind. rewrite H, Nat.eqb_refl. reflexivity. Qed.
Lemma cksize_eq r n (s : state) : length (ar s r) = n -> cksize F r n s = Done F tt s.
Proof. intros <-. unfold cksize, vecsize, MatModel.bind. rewrite Nat.eqb_refl. reflexivity. Qed.

Ltac step E := rewrite (bind_done _ _ _ _ _ E).
Ltac rd P v i := step (part_get _ _ _ _ _ _ v i P (fun _ => le_n _) ltac:(lia)).

Lemma elementwise2 (f : F -> F -> F) a b r (s : state) : length (ar s a) = length (ar s b) -> length (ar s a) = length (ar s r) ->
  exists s', for_ F (length (ar s a)) 0 (fun i => bind (get F a i) (fun x => bind (get F b i) (fun y => put F r i (f x y)))) s
             = Done F tt s' /\
    part s s' r (fun i => f (elt s a i) (elt s b i)) (fun x => x < length (ar s a)) (fun x => length (ar s a) <= x).
Proof.
  intros H1 H2. apply for_fill; [lia|reflexivity|]. intros i s1 Hi P. rd P a i. rd P b i. reflexivity.
Qed.
Lemma elementwise1 (f : F -> F) a r (s : state) : length (ar s a) = length (ar s r) ->
  exists s', for_ F (length (ar s a)) 0 (fun i => bind (get F a i) (fun x => put F r i (f x))) s = Done F tt s' /\
    part s s' r (fun i => f (elt s a i)) (fun x => x < length (ar s a)) (fun x => length (ar s a) <= x).
Proof.
  intros H2. apply for_fill; [lia|reflexivity|]. intros i s1 Hi P. rd P a i. reflexivity.
Qed.
Lemma VPLUS_ok a b r (s : state) : length (ar s a) = length (ar s b) -> length (ar s r) = length (ar s a) ->
  delivers zero r r (length (ar s a)) (fun i => add (elt s a i) (elt s b i)) s (VPLUS F add a b r s).
Proof.
  intros H1 H2. unfold VPLUS. step (ckvsize_eq a b s H1). step (cksize_eq r (length (ar s a)) s H2).
  destruct (elementwise2 add a b r s H1 (eq_sym H2)) as (s' & E & P). step E. apply part_delivers; [exact P|lia].
Qed.
Lemma VMINUS_ok a b r (s : state) : length (ar s a) = length (ar s b) -> length (ar s r) = length (ar s a) ->
  delivers zero r r (length (ar s a)) (fun i => sub (elt s a i) (elt s b i)) s (VMINUS F sub a b r s).
Proof.
  intros H1 H2. unfold VMINUS. step (ckvsize_eq a b s H1). step (cksize_eq r (length (ar s a)) s H2).
  destruct (elementwise2 sub a b r s H1 (eq_sym H2)) as (s' & E & P). step E. apply part_delivers; [exact P|lia].
Qed.
Lemma MIDPOINT_ok ratio a b r (s : state) : length (ar s a) = length (ar s b) -> length (ar s r) = length (ar s a) ->
  delivers zero r r (length (ar s a)) (fun i => add (mul (elt s a i) (sub one ratio)) (mul (elt s b i) ratio)) s
    (MIDPOINT F one add sub mul ratio a b r s).
Proof.
  intros H1 H2. unfold MIDPOINT. step (ckvsize_eq a b s H1). step (cksize_eq r (length (ar s a)) s H2).
  destruct (elementwise2 (fun x y => add (mul x (sub one ratio)) (mul y ratio)) a b r s H1 (eq_sym H2)) as (s' & E & P).
  step E. apply part_delivers; [exact P|lia].
Qed.
Lemma VNEGATE_ok a r (s : state) : length (ar s r) = length (ar s a) ->
  delivers zero r r (length (ar s a)) (fun i => neg (elt s a i)) s (VNEGATE F neg a r s).
Proof.
  intros H2. unfold VNEGATE. step (eq_refl : vecsize F a s = Done F (length (ar s a)) s). step (cksize_eq r (length (ar s a)) s H2).
  destruct (elementwise1 neg a r s (eq_sym H2)) as (s' & E & P). step E. apply part_delivers; [exact P|lia].
Qed.
Lemma SCALEVEC_ok c a r (s : state) : length (ar s r) = length (ar s a) ->
  delivers zero r r (length (ar s a)) (fun i => mul c (elt s a i)) s (SCALEVEC F mul c a r s).
Proof.
  intros H2. unfold SCALEVEC. step (eq_refl : vecsize F a s = Done F (length (ar s a)) s). step (cksize_eq r (length (ar s a)) s H2).
  destruct (elementwise1 (mul c) a r s (eq_sym H2)) as (s' & E & P). step E. apply part_delivers; [exact P|lia].
Qed.
Lemma VNORMALIZE_ok a r (s : state) : length (ar s r) = length (ar s a) ->
  delivers zero r r (length (ar s a))
    (fun i => div (elt s a i) (sqrt (dot zero add mul (length (ar s a)) (elt s a) (elt s a)))) s
    (VNORMALIZE F zero add mul div sqrt a r s).
Proof.
  intros H2. unfold VNORMALIZE. step (eq_refl : vecsize F a s = Done F (length (ar s a)) s).
  step (cksize_eq r (length (ar s a)) s H2).
  rewrite (bind_done _ _ _ _ _ (acc_dot (elt s a) (elt s a) _ (length (ar s a)) s
    (fun k x Hk => eq_trans (bind_done _ _ _ _ _ (get_eq a k s Hk)) (bind_done _ _ _ _ _ (get_eq a k s Hk))))).
  destruct (elementwise1 (fun x => div x (sqrt (dot zero add mul (length (ar s a)) (elt s a) (elt s a)))) a r s (eq_sym H2)) as (s' & E & P).
  cbv zeta. step E. apply part_delivers; [exact P|lia].
Qed.
Lemma VDIRECTION_ok a b r (s : state) : length (ar s a) = length (ar s b) -> length (ar s r) = length (ar s a) ->
  let d := fun i => sub (elt s b i) (elt s a i) in
  delivers zero r r (length (ar s a)) (fun i => div (d i) (sqrt (dot zero add mul (length (ar s a)) d d))) s
    (VDIRECTION F zero add sub mul div sqrt a b r s).
Proof.
  intros H1 H2 d. unfold VDIRECTION. step (ckvsize_eq a b s H1). step (cksize_eq r (length (ar s a)) s H2).
  set (n := length (ar s a)) in *.
  destruct (acc_inv (fun i x s' => part s s' r d (fun x => x < i) (fun x => i <= x) /\ x = dot zero add mul i d d)
    (fun i norm => bind (get F b i) (fun y => bind (get F a i) (fun x => bind (put F r i (sub y x)) (fun _ =>
      bind (get F r i) (fun p => bind (get F r i) (fun q => ret F (add norm (mul p q))))))))
    n 0 zero s) as (x & s1 & E1 & P1 & ->).
  - intros i x s1 _ Hi [P ->]. unfold n in Hi. rd P b i. rd P a i. change (sub (elt s b i) (elt s a i)) with (d i).
    destruct (part_put _ _ _ _ _ _ (fun x => x < S i) (fun x => S i <= x) i P) as (s2 & E2 & P2 & _); [lia|lia|lia|].
    step E2. assert (get F r i s2 = Done F (d i) s2) as Eg.
    { rewrite get_eq by (rewrite (part_length _ _ _ _ _ _ _ P2); lia). f_equal. apply P2; lia. }
    step Eg. step Eg. eexists. exists s2. split; [reflexivity|]. split; [exact P2|reflexivity].
  - split; [apply part_start; [reflexivity|lia]|reflexivity].
  - step E1. cbv zeta. cbn [Nat.add] in *. set (N := sqrt _).
    assert (length (ar s1 r) = n) as Hr by (rewrite (part_length _ _ _ _ _ _ _ P1); exact H2).
    destruct (elementwise1 (fun x => div x N) r r s1 eq_refl) as (s2 & E2 & P2). rewrite Hr in *. step E2.
    destruct P1 as (A1 & A2 & A3 & A4). destruct P2 as (B1 & B2 & B3 & B4).
    split; [reflexivity|split; [|split; [|split]]].
    + intros v Hv. rewrite (B1 v Hv). apply A1. exact Hv.
    + congruence.
    + intros i Hi. rewrite (B3 i) by lia. rewrite (A3 i) by lia. reflexivity.
    + intros i Hi. rewrite (B4 i Hi). apply A4. exact Hi.
Qed.
Lemma VCROSSPRODUCT_ok a b r (s : state) : length (ar s a) = 3 -> length (ar s b) = 3 -> length (ar s r) = 3 -> r <> a -> r <> b ->
  let c := fun i j => sub (mul (elt s a i) (elt s b j)) (mul (elt s a j) (elt s b i)) in
  delivers zero r r 3 (fun i => match i with 0 => c 1 2 | 1 => c 2 0 | _ => c 0 1 end) s (VCROSSPRODUCT F sub mul a b r s).
Proof.
  intros H1 H2 H3 Na Nb c. unfold VCROSSPRODUCT. step (ckvsize_eq a b s ltac:(congruence)). rewrite H1. cbn [Nat.eqb].
  step (cksize_eq r 3 s H3). set (L := fun i => match i with 0 => c 1 2 | 1 => c 2 0 | _ => c 0 1 end).
  assert (forall s1 D U i j, part s s1 r L D U -> i < 3 -> j < 3 -> cross F sub mul a b i j s1 = Done F (c i j) s1) as Hc.
  { intros s1 D U i j P Hi Hj. unfold cross.
    step (part_get _ _ _ _ _ _ a i P ltac:(congruence) ltac:(lia)). step (part_get _ _ _ _ _ _ b j P ltac:(congruence) ltac:(lia)).
    step (part_get _ _ _ _ _ _ a j P ltac:(congruence) ltac:(lia)). step (part_get _ _ _ _ _ _ b i P ltac:(congruence) ltac:(lia)).
    reflexivity. }
  pose proof (part_start s s r L (fun x => x < 0) (fun x => 0 <= x) (fun _ => eq_refl) (fun x H => Nat.nlt_0_r x H)) as P0.
  step (Hc _ _ _ 1 2 P0 ltac:(lia) ltac:(lia)). change (c 1 2) with (L 0).
  destruct (part_put _ _ _ _ _ _ (fun x => x < 1) (fun x => 1 <= x) 0 P0) as (s1 & E1 & P1 & _); [lia|lia|lia|]. step E1.
  step (Hc _ _ _ 2 0 P1 ltac:(lia) ltac:(lia)). change (c 2 0) with (L 1).
  destruct (part_put _ _ _ _ _ _ (fun x => x < 2) (fun x => 2 <= x) 1 P1) as (s2 & E2 & P2 & _); [lia|lia|lia|]. step E2.
  step (Hc _ _ _ 0 1 P2 ltac:(lia) ltac:(lia)). change (c 0 1) with (L 2).
  destruct (part_put _ _ _ _ _ _ (fun x => x < 3) (fun x => 3 <= x) 2 P2) as (s3 & E3 & P3 & _); [lia|lia|lia|]. step E3.
  apply part_delivers; [exact P3|lia].
Qed.

(** the sum of many vectors *)
Lemma addall_ok n r (s0 : state) : length (ar s0 r) = n -> forall ps s L,
  part s0 s r L (fun x => x < n) (fun x => n <= x) -> (forall p, In p ps -> length (ar s0 p) = n /\ p <> r) ->
  exists s', addall F add n r ps s = Done F tt s' /\
    part s0 s' r (fun i => fold_left (fun x p => add x (elt s0 p i)) ps (L i)) (fun x => x < n) (fun x => n <= x).
Proof.
  intros Hr. induction ps as [|p ps IH]; intros s L P1 H; cbn [addall fold_left].
  - exists s. split; [reflexivity|exact P1].
  - destruct (H p (or_introl eq_refl)) as [Hp Hpr].
    step (cksize_eq p n s ltac:(rewrite (part_length _ _ _ _ _ _ _ P1); exact Hp)).
    assert (length (ar s r) = n) as Hr1 by (rewrite (part_length _ _ _ _ _ _ _ P1); exact Hr).
    assert (length (ar s p) = n) as Hp1 by (rewrite (part_length _ _ _ _ _ _ _ P1); exact Hp).
    destruct (elementwise2 add r p r s ltac:(congruence) eq_refl) as (s2 & E2 & P2). rewrite Hr1 in *.
    step E2. apply (IH s2 (fun i => add (L i) (elt s0 p i))); [|intros q Hq; apply H; right; exact Hq].
    destruct P1 as (A1 & A2 & A3 & A4). destruct P2 as (B1 & B2 & B3 & B4).
    split; [|split; [|split]].
    + intros v Hv. rewrite (B1 v Hv). apply A1. exact Hv.
    + congruence.
    + intros i Hi Di. rewrite (B3 i) by lia. rewrite (A3 i) by lia. f_equal. unfold MatSpec.elt. rewrite (A1 p Hpr). reflexivity.
    + intros i Hi. rewrite (B4 i Hi). apply A4. exact Hi.
Qed.
Lemma VPLUSPLUS_ok a ps r (s : state) : ps <> [] -> length (ar s r) = length (ar s a) ->
  (forall p, In p ps -> length (ar s p) = length (ar s a) /\ p <> r) ->
  delivers zero r r (length (ar s a)) (total zero add s a (rev ps)) s (VPLUSPLUS F add a ps r s).
Proof.
  intros Hne Hr Hp. unfold VPLUSPLUS. destruct ps as [|q qs]; [congruence|]. set (ps := q :: qs) in *.
  step (eq_refl : vecsize F a s = Done F (length (ar s a)) s).
  destruct (elementwise1 (fun x => x) a r s (eq_sym Hr)) as (s1 & E1 & P1). step E1.
  destruct (addall_ok (length (ar s a)) r s Hr (rev ps) s1 _ P1) as (s2 & E2 & P2).
  { intros p H. apply Hp. apply in_rev. exact H. }
  step E2. split; [reflexivity|]. destruct P2 as (A1 & A2 & A3 & A4). split; [exact A1|split; [exact A2|split; [|exact A4]]].
  intros i Hi. rewrite (A3 i) by lia. reflexivity.
Qed.
End Proofs.
