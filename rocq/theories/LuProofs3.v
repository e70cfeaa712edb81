(** Proofs about LU decomposition over a field: the inverse and the determinant. *)
From Coq Require Import List Arith Bool Lia Field.
From Verif Require Import MatModel MatSpec MatProofs MatProofs2 LuModel LuSpec LuProofs LuProofs2.
Import ListNotations.

Section Proofs.
Variables (F : Type) (zero one : F) (add mul sub : F -> F -> F) (neg : F -> F) (div : F -> F -> F) (inv : F -> F).
Hypothesis fth : field_theory zero one add mul sub neg div inv (@eq F).
Add Field Ff : fth.
Notation "0" := zero. Notation "1" := one. Infix "+" := add. Infix "*" := mul. Infix "-" := sub. Infix "/" := div.
Notation sum := (sum zero add). Notation row_times := (row_times zero add mul). Notation solves := (solves zero add mul).
Notation elt := (elt zero). Notation ar := (ar F). Notation state := (state F). Notation mat := (mat F). Notation bind := (MatModel.bind F).
Notation left := (LuProofs.left F zero inv). Notation INV := (LuProofs.INV F zero add mul inv). Notation only := (LuProofs2.only F).
Notation unit_matrix := (unit_matrix zero one). Notation inverse_of := (inverse_of zero one add mul).
Ltac step E := rewrite (bind_done _ _ _ _ _ _ E).
Variables (gt_abs : F -> F -> bool) (tiny : F -> bool).
Hypothesis tiny_zero : tiny 0 = true.
Notation pivot := (pivot F gt_abs). Notation decompose_loop := (decompose_loop F one sub mul div gt_abs tiny).
Notation decompose := (decompose F one sub mul div gt_abs tiny).

(** ** The inverse *)
Lemma copy_column n i r res (s : state) : length (ar s r) = n -> length (ar s res) = (n * n)%nat -> r <> res -> (i < n)%nat ->
  exists s', for_ F n 0 (fun j => bind (get F r j) (fun x => put F res (j * n + i) x)) s = Done F tt s' /\ only res s s' /\
    (forall j, (j < n)%nat -> elt s' res (j * n + i) = elt s r j) /\
    (forall j i', (i' < n)%nat -> i' <> i -> elt s' res (j * n + i') = elt s res (j * n + i')).
Proof.
  intros Hr Hres Hne Hi.
  assert (forall j i' j', (i' < n)%nat -> (j * n + i')%nat = (j' * n + i)%nat -> i' = i /\ j = j') as Hpos.
  { intros j i' j' Hi' E. pose proof (f_equal (fun x => x mod n) E) as E1. pose proof (f_equal (fun x => x / n)%nat E) as E2.
    cbn beta in E1, E2. rewrite !index_mod in E1 by assumption. rewrite !index_div in E2 by assumption. auto. }
  destruct (for_inv F (fun k s' => only res s s' /\ (forall j, (j < k)%nat -> elt s' res (j * n + i) = elt s r j) /\
      (forall j i', (i' < n)%nat -> i' <> i -> elt s' res (j * n + i') = elt s res (j * n + i')))
    (fun j => bind (get F r j) (fun x => put F res (j * n + i) x)) n 0%nat s) as (s' & E & P).
  - intros k s1 _ Hk [[O1 O2] [K1 K2]]. cbn [Nat.add] in Hk.
    rewrite (bind_done _ _ _ _ _ _ (get_eq F zero r k s1 ltac:(rewrite O1 by exact Hne; lia))).
    match goal with |- context [put F res (k * n + i) ?t s1] =>
      destruct (put_ok F zero res (k * n + i) t s1 ltac:(rewrite O2, Hres; nia)) as (s2 & E2 & O & V1 & V2) end.
    exists s2. split; [exact E2|]. split; [exact (only_trans F _ _ _ _ (conj O1 O2) O)|]. split.
    + intros j Hj. destruct (Nat.eq_dec j k) as [->|Nj].
      * rewrite V1. unfold MatSpec.elt. rewrite O1 by exact Hne. reflexivity.
      * rewrite V2; [apply K1; lia|]. intros E'. destruct (Hpos _ _ _ Hi E'). congruence.
    + intros j i' Hi' Ni. rewrite V2; [apply K2; assumption|]. intros E'. destruct (Hpos _ _ _ Hi' E'). congruence.
  - split; [apply only_refl|]. split; [intros j Hj; lia|reflexivity].
  - exists s'. auto.
Qed.
Lemma inverse_ok A n vec rvec res (s : state) a p : decompose A n = Some (a, p) ->
  vec <> rvec -> vec <> res -> rvec <> res -> length (ar s vec) = n -> (forall i, (i < n)%nat -> elt s vec i = 0) ->
  length (ar s rvec) = n -> length (ar s res) = (n * n)%nat ->
  exists s', inverse_matrix F zero one sub mul div gt_abs tiny A n vec rvec res s = Done F true s' /\
    (forall v, v <> vec -> v <> rvec -> v <> res -> ar s' v = ar s v) /\ length (ar s' res) = (n * n)%nat /\
    forall j, (j < n)%nat -> solves n A (fun k => elt s' res (k * n + j)) (fun k => unit_matrix k j).
Proof.
  intros Hd N1 N2 N3 Hv Hz Hr Hres. unfold inverse_matrix. rewrite Hd.
  apply (decompose_ok F zero one add mul sub neg div inv fth gt_abs tiny tiny_zero) in Hd.
  match goal with |- exists s', MatModel.bind F (for_ F n 0 ?body) _ s = _ /\ _ =>
    destruct (for_inv F (fun i s' => (forall v, v <> vec -> v <> rvec -> v <> res -> ar s' v = ar s v) /\
      length (ar s' vec) = n /\ (forall i, (i < n)%nat -> elt s' vec i = 0) /\ length (ar s' rvec) = n /\ length (ar s' res) = (n * n)%nat /\
      forall j, (j < i)%nat -> solves n A (fun k => elt s' res (k * n + j)) (fun k => unit_matrix k j)) body n 0%nat s)
      as (s' & E & K1 & _ & _ & _ & K5 & K6) end.
  - intros i s1 _ Hi (K1 & K2 & K3 & K4 & K5 & K6). cbn [Nat.add] in Hi.
    destruct (put_ok F zero vec i 1 s1 ltac:(lia)) as (s2 & E2 & [O2 L2] & V1 & V2). step E2.
    destruct (LU_SOLVE_ok F zero one add mul sub neg div inv fth A a p n vec rvec s2 Hd ltac:(congruence)
      ltac:(rewrite O2 by auto; exact K4) N1) as (s3 & E3 & [O3 L3] & S3). step E3.
    destruct (copy_column n i rvec res s3 ltac:(rewrite L3, O2 by auto; exact K4) ltac:(rewrite O3, O2 by auto; exact K5) N3 Hi)
      as (s4 & E4 & [O4 L4] & C1 & C2). step E4.
    assert (ar s4 vec = ar s2 vec) as Ev by (rewrite O4, O3 by auto; reflexivity).
    destruct (put_ok F zero vec i 0 s4 ltac:(rewrite Ev, L2; lia)) as (s5 & E5 & [O5 L5] & V3 & V4).
    assert (forall x, elt s5 res x = elt s4 res x) as Er by (intros x; unfold MatSpec.elt; rewrite O5 by auto; reflexivity).
    exists s5. split; [exact E5|]. split; [|split; [|split; [|split; [|split]]]].
    + intros v H1 H2 H3. rewrite O5, O4, O3, O2 by auto. apply K1; assumption.
    + rewrite L5, Ev, L2. exact K2.
    + intros j Hj. destruct (Nat.eq_dec j i) as [->|Nj]; [exact V3|]. rewrite V4 by exact Nj.
      unfold MatSpec.elt. rewrite Ev. change (elt s2 vec j = 0). rewrite V2 by exact Nj. auto.
    + rewrite O5, O4, L3, O2 by auto. exact K4.
    + rewrite O5, L4, O3, O2 by auto. exact K5.
    + intros j Hj r Hr0. destruct (Nat.eq_dec j i) as [->|Nj].
      * assert (row_times n A (fun k => elt s5 res (k * n + i)) r = row_times n A (elt s3 rvec) r) as ->.
        { apply sum_ext. intros m Hm. rewrite Er, C1 by exact Hm. reflexivity. }
        rewrite (S3 r Hr0). unfold LuSpec.unit_matrix. destruct (Nat.eqb_spec r i) as [->|Nr]; [exact V1|].
        rewrite V2 by exact Nr. auto.
      * rewrite <- (K6 j ltac:(lia) r Hr0). apply sum_ext. intros m Hm. rewrite Er, C2 by lia.
        unfold MatSpec.elt. rewrite O3, O2 by auto. reflexivity.
  - repeat (split; [solve [auto]|]). intros j Hj. lia.
  - exists s'. step E. split; [reflexivity|]. auto.
Qed.
Lemma inverse_both A n a p (B : mat) : decompose A n = Some (a, p) ->
  (forall j, (j < n)%nat -> solves n A (fun k => B k j) (fun k => unit_matrix k j)) -> inverse_of n A B /\ inverse_of n B A.
Proof.
  intros Hd H. apply (decompose_ok F zero one add mul sub neg div inv fth gt_abs tiny tiny_zero) in Hd. split.
  - intros i j Hi Hj. apply (H j Hj i Hi).
  - intros i j Hi Hj.
    apply (INV_unique F zero one add mul sub neg div inv fth n A a p (fun k => sum n (fun m => B k m * A m j)) (fun k => unit_matrix k j) Hd);
      [|exact Hi].
    intros r Hr. unfold LuSpec.row_times. rewrite (sum_pick F zero one add mul sub neg div inv fth) by exact Hj.
    rewrite (sum_ext F zero add n _ (fun k => sum n (fun m => A r k * (B k m * A m j)))).
    2:{ intros k Hk. rewrite (sum_scale F zero one add mul sub neg div inv fth). reflexivity. }
    rewrite (sum_swap F zero one add mul sub neg div inv fth).
    rewrite (sum_ext F zero add n _ (fun m => A m j * unit_matrix m r)).
    + apply (sum_pick F zero one add mul sub neg div inv fth n (fun m => A m j)). exact Hr.
    + intros m Hm. rewrite (sum_ext F zero add n _ (fun k => A r k * B k m * A m j)) by (intros; ring).
      rewrite (sum_scale_r F zero one add mul sub neg div inv fth). pose proof (H m Hm r Hr) as K. unfold LuSpec.row_times in K. rewrite K.
      unfold LuSpec.unit_matrix. rewrite (Nat.eqb_sym r m). ring.
Qed.

(** ** The determinant *)
Section Det.
Variables (s : nat) (D : mat -> F).
Hypothesis HD : determinant zero one add mul neg s D.
Definition signed (p : nat -> nat) : Prop :=
  exists sg, (sg = 1 \/ sg = neg 1) /\ forall M, D (fun i => M (p i)) = sg * D M.
Lemma signed_exch p k l : signed p -> (k < s)%nat -> (l < s)%nat -> k <> l -> signed (exch p k l).
Proof.
  intros (sg & H1 & H2) Hk Hl Hn. destruct HD as (D1 & D2 & _). exists (neg sg). split.
  - destruct H1 as [-> | ->]; [right; reflexivity|left; ring].
  - intros M. rewrite (D1 _ (swap_rows (fun i => M (p i)) k l)).
    + rewrite D2 by assumption. rewrite H2. ring.
    + intros i j Hi Hj. rewrite exch_eq by exact Hn. unfold swap_rows. destruct (i =? k); [reflexivity|]. destruct (i =? l); reflexivity.
Qed.
Lemma loop_signed : forall n k a p a' p', (k + n)%nat = s -> signed p -> decompose_loop n k a p s = Some (a', p') -> signed p'.
Proof.
  induction n as [|n IH]; intros k a p a' p' Hn Hp H; cbn [MatModel.decompose_loop] in H.
  - injection H as _ <-. exact Hp.
  - pose proof (pivot_eq F gt_abs a p k (s - S k) (S k) k) as Hl. destruct (pivot (s - S k) (S k) a p k k (a (p k) k)) as [l al].
    destruct Hl as [_ Hl]. destruct (tiny al); [discriminate|].
    apply IH in H; [exact H|lia|]. destruct (Nat.eqb_spec l k) as [->|Nl]; [exact Hp|].
    apply (signed_exch p k l); [exact Hp|lia|lia|auto].
Qed.
Lemma det_factor (l U : mat) n : (n <= s)%nat ->
  D (fun i j => if (i <? n)%nat then U i j else U i j + sum i (fun m => l i m * U m j)) = D U.
Proof.
  destruct HD as (D1 & _ & D3 & _). remember (s - n)%nat as d eqn:Ed. revert n Ed. induction d as [|d IH]; intros n Ed Hn.
  - apply D1. intros i j Hi Hj. destruct (Nat.ltb_spec i n); [reflexivity|lia].
  - rewrite <- (IH (S n)) by lia.
    assert (forall t, (t <= n)%nat -> D (fun i j => if i =? n then U n j + sum t (fun m => l n m * U m j)
        else if (i <? S n)%nat then U i j else U i j + sum i (fun m => l i m * U m j)) =
      D (fun i j => if (i <? S n)%nat then U i j else U i j + sum i (fun m => l i m * U m j))) as H.
    { induction t as [|t IHt]; intros Ht.
      - apply D1. intros i j Hi Hj. destruct (Nat.eqb_spec i n) as [->|]; [|reflexivity].
        destruct (Nat.ltb_spec n (S n)); [|lia]. cbn [LuSpec.sum]. ring.
      - rewrite <- (IHt ltac:(lia)). rewrite <- (D3 (fun i j => if i =? n then U n j + sum t (fun m => l n m * U m j)
          else if (i <? S n)%nat then U i j else U i j + sum i (fun m => l i m * U m j)) n (l n t) t) by lia.
        apply D1. intros i j Hi Hj. unfold add_row. destruct (Nat.eqb_spec i n) as [->|]; [|reflexivity].
        rewrite Nat.eqb_refl. destruct (Nat.eqb_spec t n); [lia|]. destruct (Nat.ltb_spec t (S n)); [|lia]. cbn [LuSpec.sum]. ring. }
    rewrite <- (H n (le_n n)). apply D1. intros i j Hi Hj. destruct (Nat.eqb_spec i n) as [->|Nn].
    + rewrite Nat.ltb_irrefl. reflexivity.
    + destruct (Nat.ltb_spec i n); destruct (Nat.ltb_spec i (S n)); try lia; reflexivity.
Qed.
Lemma detloop_eq a p : forall n i val, detloop F mul n i a p val =
  val * diagonal one mul (fun k _ => a (p (i + k)%nat) (i + k)%nat) n.
Proof.
  induction n as [|n IH]; intros i val; cbn [detloop].
  - cbn [diagonal]. ring.
  - rewrite IH. clear IH. transitivity (val * (a (p i) i * diagonal one mul (fun k _ => a (p (S i + k)%nat) (S i + k)%nat) n)); [ring|]. f_equal.
    induction n as [|n IH]; cbn [diagonal].
    + rewrite Nat.add_0_r. ring.
    + replace (a (p i) i * (diagonal one mul (fun k _ => a (p (S i + k)%nat) (S i + k)%nat) n * a (p (S i + n)%nat) (S i + n)%nat))
        with ((a (p i) i * diagonal one mul (fun k _ => a (p (S i + k)%nat) (S i + k)%nat) n) * a (p (S i + n)%nat) (S i + n)%nat) by ring.
      rewrite IH. cbn [diagonal]. rewrite Nat.add_succ_r. reflexivity.
Qed.
Lemma lu_determinant_ok A a p : decompose A s = Some (a, p) ->
  let sg := D (fun i j => unit_matrix (p i) j) in (sg = 1 \/ sg = neg 1) /\ D A = sg * LU_DETERMINANT F one mul div a p s.
Proof.
  intros H. assert (signed p) as (sg & H1 & H2).
  { apply (loop_signed s 0%nat A (fun i => i) a p eq_refl); [|exact H]. exists 1. split; [left; reflexivity|]. intros M. ring_simplify. reflexivity. }
  apply (decompose_ok F zero one add mul sub neg div inv fth gt_abs tiny tiny_zero) in H. destruct H as (P & N & E).
  destruct HD as (D1 & D2 & D3 & D4).
  assert (D (fun i j => unit_matrix (p i) j) = sg) as Esg.
  { change (D (fun i => unit_matrix (p i)) = sg). rewrite (H2 unit_matrix), (D4 unit_matrix).
    - assert (forall n, diagonal one mul unit_matrix n = 1) as ->; [|ring].
      induction n as [|n IH]; cbn [diagonal]; [reflexivity|]. rewrite IH. unfold LuSpec.unit_matrix. rewrite Nat.eqb_refl. ring.
    - intros i j Hj Hi. unfold LuSpec.unit_matrix. destruct (Nat.eqb_spec i j); [lia|reflexivity]. }
  cbn zeta. rewrite Esg. split; [exact H1|].
  assert (D (fun i => A (p i)) = LU_DETERMINANT F one mul div a p s) as Ed.
  { rewrite (D1 _ (fun i j => if (i <? 0)%nat then left a p s i j else left a p s i j + sum i (fun m => a (p i) m * left a p s m j))).
    2:{ intros i j Hi Hj. cbn [Nat.ltb Nat.leb]. rewrite (E i j Hi Hj). replace (Nat.min i s) with i by lia. reflexivity. }
    rewrite (det_factor (fun i m => a (p i) m)) by lia. rewrite D4.
    2:{ intros i j Hj Hi. unfold LuProofs.left. destruct (Nat.ltb_spec i s); [|lia]. destruct (Nat.ltb_spec j i); [reflexivity|lia]. }
    unfold LU_DETERMINANT. rewrite detloop_eq.
    assert (forall n, (n <= s)%nat -> diagonal one mul (fun k _ => a (p (0 + k)%nat) (0 + k)%nat) n <> 0 /\
      diagonal one mul (left a p s) n = 1 / (1 * diagonal one mul (fun k _ => a (p (0 + k)%nat) (0 + k)%nat) n)) as K; [|apply K; lia].
    induction n as [|n IH]; intros Hn; cbn [diagonal].
    - split; [apply (F_1_neq_0 fth)|]. field. apply (F_1_neq_0 fth).
    - destruct (IH ltac:(lia)) as [I1 I2]. cbn [Nat.add] in *. pose proof (N n ltac:(lia)) as Nn.
      assert (diagonal one mul (fun k _ => a (p k) k) n * a (p n) n <> 0) as Hnz.
      { intros Hz. apply Nn. transitivity ((diagonal one mul (fun k _ => a (p k) k) n * a (p n) n) / diagonal one mul (fun k _ => a (p k) k) n);
          [field; exact I1|]. rewrite Hz. field. exact I1. }
      split; [exact Hnz|]. rewrite I2. unfold LuProofs.left. destruct (Nat.ltb_spec n s); [|lia]. rewrite Nat.ltb_irrefl, Nat.eqb_refl.
      field. auto. }
  rewrite <- Ed, H2. destruct H1 as [-> | ->]; ring.
Qed.
End Det.
End Proofs.
