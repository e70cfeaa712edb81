(** Proofs about LU decomposition over a field: solutions, inverses, singular matrices and determinants. *)
From Coq Require Import List Arith Bool Lia Field.
From Verif Require Import MatModel MatSpec MatProofs LuModel LuSpec LuProofs.
Import ListNotations.

Section Proofs.
Variables (F : Type) (zero one : F) (add mul sub : F -> F -> F) (neg : F -> F) (div : F -> F -> F) (inv : F -> F).
Hypothesis fth : field_theory zero one add mul sub neg div inv (@eq F).
Add Field Ff : fth.
Notation "0" := zero. Notation "1" := one. Infix "+" := add. Infix "*" := mul. Infix "-" := sub. Infix "/" := div.
Notation sum := (sum zero add). Notation row_times := (row_times zero add mul). Notation solves := (solves zero add mul).
Notation elt := (elt zero). Notation ar := (ar F). Notation state := (state F). Notation mat := (mat F). Notation bind := (MatModel.bind F).
Notation left := (LuProofs.left F zero inv). Notation INV := (LuProofs.INV F zero add mul inv).
Ltac step E := rewrite (bind_done _ _ _ _ _ _ E).
Let H10 : 1 <> 0 := F_1_neq_0 fth.
Lemma inv_nz x : x <> 0 -> inv x <> 0.
Proof. intros H E. apply H10. transitivity (x * inv x); [field; exact H|]. rewrite E. ring. Qed.

(** ** Equations through the two factors *)
Lemma row_of_left s A a p k z i : INV A s a p k -> (i < s)%nat ->
  row_times s A z (p i) = row_times s (left a p k) z i + sum (Nat.min i k) (fun m => a (p i) m * row_times s (left a p k) z m).
Proof.
  intros (P & N & E) Hi. unfold LuSpec.row_times.
  rewrite (sum_ext F zero add s _ (fun j => left a p k i j * z j + sum (Nat.min i k) (fun m => a (p i) m * (left a p k m j * z j)))).
  2:{ intros j Hj. rewrite (E i j Hi Hj).
      rewrite (sum_ext F zero add _ (fun m => a (p i) m * (left a p k m j * z j)) (fun m => a (p i) m * left a p k m j * z j))
        by (intros; ring).
      rewrite (sum_scale_r F zero one add mul sub neg div inv fth). ring. }
  rewrite (sum_add F zero one add mul sub neg div inv fth). f_equal.
  rewrite (sum_swap F zero one add mul sub neg div inv fth). apply sum_ext. intros m Hm.
  rewrite (sum_scale F zero one add mul sub neg div inv fth). reflexivity.
Qed.
(** a row of the upper factor *)
Lemma row_upper s a p z i : (i < s)%nat ->
  row_times s (left a p s) z i = inv (a (p i) i) * z i + sum (s - S i) (fun d => a (p i) (S i + d)%nat * z (S i + d)%nat).
Proof.
  intros Hi. unfold LuSpec.row_times. rewrite (sum_at F zero one add mul sub neg div inv fth s i) by exact Hi. unfold LuProofs.left.
  destruct (Nat.ltb_spec i s); [|lia]. rewrite (sum_zero F zero one add mul sub neg div inv fth).
  2:{ intros j Hj. destruct (Nat.ltb_spec j i); [ring|lia]. }
  rewrite Nat.ltb_irrefl, Nat.eqb_refl.
  rewrite (sum_ext F zero add (s - S i) _ (fun d => a (p i) (S i + d)%nat * z (S i + d)%nat)); [ring|].
  intros d Hd. destruct (Nat.ltb_spec (S i + d) i); [lia|]. destruct (Nat.eqb_spec (S i + d) i); [lia|]. reflexivity.
Qed.
Lemma lower_unique s (l : mat) (w y : nat -> F) (b : nat -> F) :
  (forall i, (i < s)%nat -> w i + sum i (fun m => l i m * w m) = b i) ->
  (forall i, (i < s)%nat -> y i + sum i (fun m => l i m * y m) = b i) -> forall i, (i < s)%nat -> w i = y i.
Proof.
  intros Hw Hy i. induction i as [i IH] using (well_founded_induction lt_wf). intros Hi.
  assert (w i + sum i (fun m => l i m * w m) = y i + sum i (fun m => l i m * w m)) as E.
  { rewrite Hw, <- (Hy i) by exact Hi. f_equal. apply sum_ext. intros m Hm. rewrite IH by lia. reflexivity. }
  transitivity (w i + sum i (fun m => l i m * w m) - sum i (fun m => l i m * w m)); [ring|]. rewrite E. ring.
Qed.
Lemma upper_unique s a p z x : (forall m, (m < s)%nat -> a (p m) m <> 0) ->
  (forall i, (i < s)%nat -> row_times s (left a p s) z i = row_times s (left a p s) x i) -> forall i, (i < s)%nat -> z i = x i.
Proof.
  intros N E. assert (forall n i, (i < s)%nat -> (s - i <= n)%nat -> z i = x i) as K; [|intros i Hi; apply (K (s - i)%nat); lia].
  induction n as [|n IH]; intros i Hi Hn; [lia|]. specialize (E i Hi). rewrite !row_upper in E by exact Hi.
  rewrite (sum_ext F zero add (s - S i) _ (fun d => a (p i) (S i + d)%nat * x (S i + d)%nat)) in E.
  2:{ intros d Hd. rewrite IH by lia. reflexivity. }
  set (X := sum (s - S i) _) in E. specialize (N i Hi).
  transitivity ((inv (a (p i) i) * z i + X - X) * a (p i) i); [field; exact N|]. rewrite E. field. exact N.
Qed.
Lemma INV_unique s A a p z x : INV A s a p s -> (forall i, (i < s)%nat -> row_times s A z i = row_times s A x i) ->
  forall i, (i < s)%nat -> z i = x i.
Proof.
  intros HI E. pose proof HI as ((P1 & _) & N & _). apply (upper_unique s a p); [exact N|].
  apply (lower_unique s (fun i m => a (p i) m) _ _ (fun i => row_times s A z (p i))).
  - intros i Hi. rewrite (row_of_left s A a p s z i HI Hi). replace (Nat.min i s) with i by lia. reflexivity.
  - intros i Hi. rewrite E by auto. rewrite (row_of_left s A a p s x i HI Hi). replace (Nat.min i s) with i by lia. reflexivity.
Qed.

(** ** lu-solve *)
Definition only (x : nat) (s s' : state) : Prop := (forall v, v <> x -> ar s' v = ar s v) /\ length (ar s' x) = length (ar s x).
Lemma only_refl x s : only x s s. Proof. split; auto. Qed.
Lemma only_trans x s1 s2 s3 : only x s1 s2 -> only x s2 s3 -> only x s1 s3.
Proof. intros [A B] [C D]. split; [intros v Hv; rewrite C, A by exact Hv; reflexivity|congruence]. Qed.
Lemma put_ok x i t (s : state) : (i < length (ar s x))%nat -> exists s', put F x i t s = Done F tt s' /\ only x s s' /\
  elt s' x i = t /\ forall j, j <> i -> elt s' x j = elt s x j.
Proof.
  intros Hi. unfold put. destruct (Nat.ltb_spec i (length (ar s x))); [|lia]. eexists. split; [reflexivity|].
  unfold only, MatSpec.elt. cbn [MatModel.ar]. rewrite !Nat.eqb_refl.
  split; [split|split].
  - intros v Hv. destruct (Nat.eqb_spec v x); [congruence|reflexivity].
  - apply set_nth_length.
  - rewrite nth_set_nth by exact Hi. rewrite Nat.eqb_refl. reflexivity.
  - intros j Hj. rewrite nth_set_nth by exact Hi. destruct (Nat.eqb_spec j i); [congruence|reflexivity].
Qed.
Lemma acc_sub (c : nat -> F) x (s : state) : forall n from t, (from + n <= length (ar s x))%nat ->
  acc F n from (fun j t => bind (get F x j) (fun y => ret F (t - c j * y))) t s =
  Done F (t - sum n (fun d => c (from + d)%nat * elt s x (from + d)%nat)) s.
Proof.
  induction n as [|n IH]; intros from t H; cbn [acc].
  - cbn [LuSpec.sum]. replace (t - 0) with t by ring. reflexivity.
  - unfold MatModel.bind at 1. rewrite (bind_done _ _ _ _ _ _ (get_eq F zero x from s ltac:(lia))). unfold ret at 1.
    rewrite IH by lia. f_equal. change (S n) with (1 + n)%nat. rewrite (sum_split F zero one add mul sub neg div inv fth). cbn [LuSpec.sum].
    rewrite Nat.add_0_r. rewrite (sum_ext F zero add n (fun d => c (from + (1 + d))%nat * elt s x (from + (1 + d))%nat)
      (fun d => c (S from + d)%nat * elt s x (S from + d)%nat)). 2:{ intros i Hi. replace (from + (1 + i))%nat with (S from + i)%nat by lia. reflexivity. }
    fold (elt s x from). ring.
Qed.
Lemma forward_ok a p n b x (s : state) : length (ar s b) = n -> length (ar s x) = n -> b <> x -> (forall i, (i < n)%nat -> (p i < n)%nat) ->
  exists s', forward F sub mul a p n b x s = Done F tt s' /\ only x s s' /\
    forall i, (i < n)%nat -> elt s' x i + sum i (fun m => a (p i) m * elt s' x m) = elt s b (p i).
Proof.
  intros Hb Hx Hne Hp. unfold forward.
  match goal with |- exists s', for_ F n 0 ?body s = _ /\ _ =>
    destruct (for_inv F (fun i s' => only x s s' /\ forall j, (j < i)%nat ->
      elt s' x j + sum j (fun m => a (p j) m * elt s' x m) = elt s b (p j)) body n 0%nat s) as (s' & E & P1 & P2) end.
  - intros i s1 _ Hi [[O1 O2] K]. cbn [Nat.add] in Hi.
    assert (elt s1 b (p i) = elt s b (p i)) as Eb by (unfold MatSpec.elt; rewrite O1 by exact Hne; reflexivity).
    rewrite (bind_done _ _ _ _ _ _ (get_eq F zero b (p i) s1 ltac:(rewrite O1 by exact Hne; rewrite Hb; auto))).
    rewrite (bind_done _ _ _ _ _ _ (acc_sub (fun j => a (p i) j) x s1 i 0%nat _ ltac:(cbn [Nat.add]; lia))). cbn [Nat.add].
    match goal with |- context [put F x i ?t s1] => destruct (put_ok x i t s1 ltac:(lia)) as (s2 & E2 & O & V1 & V2) end.
    exists s2. split; [exact E2|]. split; [exact (only_trans _ _ _ _ (conj O1 O2) O)|].
    intros j Hj. destruct (Nat.eq_dec j i) as [->|Nj].
    + rewrite V1, <- Eb. fold (elt s1 b (p i)).
      rewrite (sum_ext F zero add i (fun m => a (p i) m * elt s2 x m) (fun m => a (p i) m * elt s1 x m)).
      2:{ intros m Hm. rewrite V2 by lia. reflexivity. } ring.
    + rewrite V2 by exact Nj. rewrite <- (K j) by lia. f_equal. apply sum_ext. intros m Hm. rewrite V2 by lia. reflexivity.
  - split; [apply only_refl|]. intros j Hj. lia.
  - exists s'. auto.
Qed.
Lemma backward_ok a p s x : (forall m, (m < s)%nat -> a (p m) m <> 0) -> forall n (s1 : state), (n <= s)%nat -> length (ar s1 x) = s ->
  exists s', backward F sub mul n a p s x s1 = Done F tt s' /\ only x s1 s' /\ (forall j, (n <= j)%nat -> elt s' x j = elt s1 x j) /\
    forall i, (i < n)%nat -> row_times s (left a p s) (elt s' x) i = elt s1 x i.
Proof.
  intros N. induction n as [|i IH]; intros s1 Hn Hx; cbn [backward].
  - exists s1. split; [reflexivity|]. split; [apply only_refl|]. split; [auto|]. intros i Hi. lia.
  - set (t := elt s1 x i - sum (s - S i) (fun d => a (p i) (S i + d)%nat * elt s1 x (S i + d)%nat)).
    assert (forall k : unit -> M F unit, bind (bind (get F x i) (fun t => bind (acc F (s - S i) (S i) (fun j t => bind (get F x j) (fun y => ret F (t - a (p i) j * y))) t)
      (fun t => put F x i (t * a (p i) i)))) k s1 = bind (put F x i (t * a (p i) i)) k s1) as E.
    { intros k. unfold MatModel.bind at 1. rewrite (bind_done _ _ _ _ _ _ (get_eq F zero x i s1 ltac:(lia))).
      rewrite (bind_done _ _ _ _ _ _ (acc_sub (fun j => a (p i) j) x s1 (s - S i) (S i) _ ltac:(lia))). reflexivity. }
    rewrite E. clear E.
    destruct (put_ok x i (t * a (p i) i) s1 ltac:(lia)) as (s2 & E2 & O & V1 & V2). step E2.
    destruct (IH s2 ltac:(lia) ltac:(rewrite <- Hx; apply O)) as (s' & E' & O' & K1 & K2).
    exists s'. split; [exact E'|]. split; [exact (only_trans _ _ _ _ O O')|]. split.
    + intros j Hj. rewrite K1 by lia. apply V2. lia.
    + intros j Hj. destruct (Nat.eq_dec j i) as [->|Nj].
      * rewrite row_upper by lia. rewrite (K1 i (le_n i)), V1.
        rewrite (sum_ext F zero add (s - S i) _ (fun d => a (p i) (S i + d)%nat * elt s1 x (S i + d)%nat)).
        2:{ intros d Hd. rewrite K1, V2 by lia. reflexivity. }
        unfold t. field. apply N. lia.
      * rewrite K2 by lia. apply V2. exact Nj.
Qed.
Lemma LU_SOLVE_ok A a p n b x (s : state) : INV A n a p n -> length (ar s b) = n -> length (ar s x) = n -> b <> x ->
  exists s', LU_SOLVE F sub mul a p n b x s = Done F x s' /\ only x s s' /\ solves n A (elt s' x) (elt s b).
Proof.
  intros HI Hb Hx Hne. pose proof HI as ((P1 & P2 & P3) & N & _). unfold LU_SOLVE.
  step (cksize_eq F b n s Hb). step (cksize_eq F x n s Hx).
  destruct (forward_ok a p n b x s Hb Hx Hne P1) as (s1 & E1 & O1 & K1). step E1.
  destruct (backward_ok a p n x N n s1 (le_n n) ltac:(rewrite <- Hx; apply O1)) as (s2 & E2 & O2 & _ & K2). step E2.
  exists s2. split; [reflexivity|]. split; [exact (only_trans _ _ _ _ O1 O2)|].
  intros r Hr. destruct (P3 r Hr) as (i & Hi & <-). rewrite (row_of_left n A a p n _ i HI Hi). replace (Nat.min i n) with i by lia.
  rewrite K2 by exact Hi. rewrite <- (K1 i Hi). f_equal. apply sum_ext. intros m Hm. rewrite K2 by lia. reflexivity.
Qed.

(** ** Singular matrices *)
Variables (gt_abs : F -> F -> bool) (tiny : F -> bool).
Hypothesis tiny_zero : tiny 0 = true.
Notation pivot := (pivot F gt_abs). Notation decompose := (decompose F one sub mul div gt_abs tiny).
Lemma pivot_zero a p k : (forall x, tiny x = true -> x = 0) -> (forall x, x <> 0 -> gt_abs x 0 = true) -> (forall x y, gt_abs x y = true -> x <> 0) ->
  (forall x : F, x = 0 \/ x <> 0) ->
  forall n i l al, tiny (snd (pivot n i a p k l al)) = true ->
  al = 0 /\ forall j, (i <= j < i + n)%nat -> a (p j) k = 0.
Proof.
  intros Ht Hg1 Hg2 Hd. induction n as [|n IH]; intros i l al H; cbn [MatModel.pivot] in H.
  - split; [apply Ht; exact H|]. intros j Hj. lia.
  - destruct (gt_abs (a (p i) k) al) eqn:Eg.
    + apply IH in H. destruct H as [H _]. destruct (Hg2 _ _ Eg H).
    + apply IH in H. destruct H as [-> H]. split; [reflexivity|]. intros j Hj. destruct (Nat.eq_dec j i) as [->|Nj]; [|apply H; lia].
      destruct (Hd (a (p i) k)) as [E|E]; [exact E|]. rewrite (Hg1 _ E) in Eg. discriminate Eg.
Qed.
Lemma null_vector s A a p k : INV A s a p k -> (k < s)%nat -> (forall i, (k <= i < s)%nat -> a (p i) k = 0) -> singular zero add mul s A.
Proof.
  intros HI Hk Hz. pose proof HI as ((P1 & P2 & P3) & N & _).
  assert (forall d n, (n + d)%nat = k -> exists z, z k = 1 /\ (forall m, (k < m)%nat -> z m = 0) /\ (forall m, (m < n)%nat -> z m = 0) /\
    forall i, (n <= i < k)%nat -> row_times s (left a p k) z i = 0) as H.
  { induction d as [|d IH]; intros n Hn.
    - exists (fun m => if m =? k then 1 else 0). rewrite Nat.eqb_refl. split; [reflexivity|]. split; [|split].
      + intros m Hm. destruct (Nat.eqb_spec m k); [lia|reflexivity].
      + intros m Hm. destruct (Nat.eqb_spec m k); [lia|reflexivity].
      + intros i Hi. lia.
    - destruct (IH (S n) ltac:(lia)) as (z & Z1 & Z2 & Z3 & Z4).
      set (v := neg (row_times s (left a p k) z n) * a (p n) n).
      exists (fun m => if m =? n then v else z m). split; [|split; [|split]].
      + destruct (Nat.eqb_spec k n); [lia|exact Z1].
      + intros m Hm. destruct (Nat.eqb_spec m n); [lia|auto].
      + intros m Hm. destruct (Nat.eqb_spec m n); [lia|]. apply Z3. lia.
      + intros i Hi. unfold LuSpec.row_times. rewrite (sum_update F zero one add mul sub neg div inv fth) by lia.
        fold (row_times s (left a p k) z i). destruct (Nat.eq_dec i n) as [->|Ni].
        * rewrite (Z3 n) by lia. unfold LuProofs.left at 2. destruct (Nat.ltb_spec n k); [|lia]. rewrite Nat.ltb_irrefl, Nat.eqb_refl.
          unfold v. field. apply N. lia.
        * rewrite Z4 by lia. unfold LuProofs.left. destruct (Nat.ltb_spec i k); [|lia]. destruct (Nat.ltb_spec n i); [|lia]. ring. }
  destruct (H k 0%nat eq_refl) as (z & Z1 & Z2 & _ & Z4). exists z. split; [exists k; split; [exact Hk|rewrite Z1; exact H10]|].
  assert (forall i, (i < s)%nat -> row_times s (left a p k) z i = 0) as Hall.
  { intros i Hi. destruct (Nat.lt_ge_cases i k) as [Hik|Hik]; [apply Z4; lia|].
    unfold LuSpec.row_times. apply (sum_zero F zero one add mul sub neg div inv fth). intros j Hj. unfold LuProofs.left. destruct (Nat.ltb_spec i k); [lia|].
    destruct (Nat.ltb_spec j k); [ring|]. destruct (Nat.eq_dec j k) as [->|Nj]; [rewrite Hz by lia; ring|]. rewrite Z2 by lia. ring. }
  intros r Hr. destruct (P3 r Hr) as (i & Hi & <-). rewrite (row_of_left s A a p k z i HI Hi), Hall by exact Hi.
  rewrite (sum_zero F zero one add mul sub neg div inv fth); [ring|]. intros m Hm. rewrite Hall by lia. ring.
Qed.
Lemma decompose_none s A : (forall x, tiny x = true -> x = 0) -> (forall x, x <> 0 -> gt_abs x 0 = true) -> (forall x y, gt_abs x y = true -> x <> 0) ->
  (forall x : F, x = 0 \/ x <> 0) -> decompose A s = None -> singular zero add mul s A.
Proof.
  intros Ht Hg1 Hg2 Hd H. pose proof (loop_ok F zero one add mul sub neg div inv fth gt_abs tiny tiny_zero A s s 0 A (fun i => i)
    (INV_start F zero one add mul sub neg div inv fth A s) eq_refl) as K.
  unfold MatModel.decompose in H. rewrite H in K. destruct K as (k & a & p & Hk & HI & T).
  apply (null_vector s A a p k HI Hk). destruct (pivot_zero a p k Ht Hg1 Hg2 Hd _ _ _ _ T) as [Z1 Z2].
  intros i Hi. destruct (Nat.eq_dec i k) as [->|Ni]; [exact Z1|apply Z2; lia].
Qed.
Lemma decompose_regular s A a p : decompose A s = Some (a, p) -> ~ singular zero add mul s A.
Proof.
  intros H (z & (i & Hi & Hz) & Hs). apply (decompose_ok F zero one add mul sub neg div inv fth gt_abs tiny tiny_zero) in H.
  apply Hz. apply (INV_unique s A a p z (fun _ => 0) H); [|exact Hi]. intros j Hj. rewrite (Hs j Hj). unfold LuSpec.row_times.
  symmetry. apply (sum_zero F zero one add mul sub neg div inv fth). intros m Hm. ring.
Qed.
End Proofs.
