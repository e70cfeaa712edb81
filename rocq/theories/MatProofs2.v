(** Proofs about MatModel: products, transposition and rotation with shared memory. *)
From Coq Require Import List Arith Bool Lia.
From Verif Require Import MatModel MatSpec MatProofs.
Import ListNotations.

Lemma index_div c i j : j < c -> (i * c + j) / c = i.
Proof. intros H. rewrite Nat.div_add_l by lia. rewrite Nat.div_small by exact H. lia. Qed.
Lemma index_mod c i j : j < c -> (i * c + j) mod c = j.
Proof. intros H. rewrite Nat.add_comm, Nat.mod_add by lia. apply Nat.mod_small. exact H. Qed.
Lemma index_split c x : 0 < c -> x = (x / c) * c + x mod c /\ x mod c < c.
Proof. intros H. pose proof (Nat.div_mod x c ltac:(lia)). pose proof (Nat.mod_upper_bound x c ltac:(lia)). lia. Qed.
Lemma index_lt c x n : x < n * c -> x / c < n.
Proof. intros H. apply Nat.div_lt_upper_bound; nia. Qed.

Section Proofs.
Variables (F : Type) (zero one : F) (add sub mul div : F -> F -> F) (neg sqrt : F -> F).
Notation state := (state F). Notation elt := (elt zero). Notation ar := (ar F). Notation buf := (buf F).
Notation bind := (MatModel.bind F). Notation entry := (entry zero). Notation dot := (dot zero add mul).
Notation part := (part F zero).
Ltac step E := rewrite (bind_done _ _ _ _ _ _ E).

Lemma local_eq n (s : state) : local F zero n s = Done F tt (St F (ar s) (repeat zero n)).
Proof. reflexivity. Qed.
Lemma part_same s0 s s' r L D U : part s0 s r L D U -> (forall v, ar s' v = ar s v) -> part s0 s' r L D U.
Proof.
  intros (A & B & C & E) H. split; [|split; [|split]].
  - intros v Hv. rewrite H. auto.
  - rewrite H. exact B.
  - intros x Hx Dx. unfold MatSpec.elt. rewrite H. apply C; assumption.
  - intros x Ux. unfold MatSpec.elt. rewrite H. apply E. exact Ux.
Qed.
Lemma acc_dot2 n v w (p q : nat -> nat) f g (s : state) :
  (forall k, k < n -> get F v (p k) s = Done F (f k) s) -> (forall k, k < n -> get F w (q k) s = Done F (g k) s) ->
  acc F n 0 (fun k x => bind (get F v (p k)) (fun a => bind (get F w (q k)) (fun b => ret F (add x (mul a b))))) zero s
  = Done F (dot n f g) s.
Proof.
  intros H1 H2. apply acc_dot. intros k x Hk. rewrite (bind_done _ _ _ _ _ _ (H1 k Hk)), (bind_done _ _ _ _ _ _ (H2 k Hk)). reflexivity.
Qed.
(** filling the local array with sums of products *)
Lemma for_buf n (g : nat -> F) body (s : state) : n <= length (buf s) ->
  (forall i s', i < n -> (forall v, ar s' v = ar s v) -> body i s' = put_buf F i (g i) s') ->
  exists s', for_ F n 0 body s = Done F tt s' /\ (forall v, ar s' v = ar s v) /\ length (buf s') = length (buf s) /\
    forall i, i < n -> nth i (buf s') zero = g i.
Proof.
  intros Hn H.
  destruct (for_inv F (fun i s' => (forall v, ar s' v = ar s v) /\ length (buf s') = length (buf s) /\
      forall j, j < i -> nth j (buf s') zero = g j) body n 0 s) as (s' & E & P).
  - intros i s1 _ Hi (A & B & C). rewrite (H i s1 Hi A), put_buf_eq by lia. eexists. split; [reflexivity|].
    cbn [MatModel.ar MatModel.buf]. split; [exact A|]. split; [rewrite set_nth_length; exact B|].
    intros j Hj. rewrite nth_set_nth by lia. destruct (Nat.eqb_spec j i) as [->|Hn']; [reflexivity|]. apply C. lia.
  - split; [reflexivity|split; [reflexivity|lia]].
  - exists s'. split; [exact E|]. exact P.
Qed.
(** writing out of the local array into [r] at the places [pos] *)
Lemma for_out n (pos : nat -> nat) r L (D U : nat -> nat -> Prop) (s0 s : state) : n <= length (buf s) ->
  (forall i, i < n -> pos i < length (ar s0 r)) -> (forall i, i < n -> nth i (buf s) zero = L (pos i)) ->
  (forall i x, i < n -> x < length (ar s0 r) -> D (S i) x -> D i x \/ x = pos i) ->
  (forall i x, i < n -> U (S i) x -> U i x /\ x <> pos i) ->
  part s0 s r L (D 0) (U 0) ->
  exists s', for_ F n 0 (fun j => bind (get_buf F j) (fun x => put F r (pos j) x)) s = Done F tt s' /\
    part s0 s' r L (D n) (U n) /\ buf s' = buf s.
Proof.
  intros Hn Hp Hb HD HU P.
  destruct (for_inv F (fun i s' => part s0 s' r L (D i) (U i) /\ buf s' = buf s)
    (fun j => bind (get_buf F j) (fun x => put F r (pos j) x)) n 0 s) as (s' & E & Q).
  - intros i s1 _ Hi [P1 B1]. cbn [Nat.add] in Hi.
    rewrite (bind_done _ _ _ _ _ _ (get_buf_eq F zero i s1 ltac:(rewrite B1; lia))). rewrite B1, Hb by lia.
    destruct (part_put F zero _ _ _ _ _ _ (D (S i)) (U (S i)) (pos i) P1) as (s2 & E2 & P2 & B2); [apply Hp; lia| | |].
    + intros x Hx. apply HD; lia.
    + intros x. apply HU; lia.
    + exists s2. split; [exact E2|]. split; [exact P2|congruence].
  - split; [exact P|reflexivity].
  - exists s'. split; [exact E|exact Q].
Qed.
Lemma part_fills (R : matrix) s0 s L : part s0 s (ent R) L (fun x => x < rows R * cols R) (fun x => rows R * cols R <= x) ->
  fits s0 R -> forall L2, (forall i j, i < rows R -> j < cols R -> L (i * cols R + j) = L2 i j) ->
  fills zero R L2 s0 (Done F R s).
Proof.
  intros (P1 & P2 & P3 & P4) Hf L2 HL. unfold fits in Hf.
  split; [reflexivity|split; [exact P1|split; [exact P2|split; [|exact P4]]]].
  intros i j Hi Hj. unfold MatSpec.entry. rewrite <- HL by assumption. apply P3; nia.
Qed.

(** ** The product *)
Lemma MATTIMES_ok A B R (s : state) : fits s A -> fits s B -> fits s R ->
  cols A = rows B -> rows R = rows A -> cols R = cols B ->
  (ent R = ent A -> cols A = cols R /\ ent R <> ent B) ->
  fills zero R (fun i j => dot (cols A) (entry s A i) (fun k => entry s B k j)) s (MATTIMES F zero add mul A B R s).
Proof.
  intros FA FB FR H1 H2 H3 Hal. unfold fits in *. unfold MATTIMES. rewrite H1, Nat.eqb_refl, H2, H3, !Nat.eqb_refl.
  cbn [negb andb]. rewrite <- H1.
  set (row1 := rows A) in *. set (column1 := cols A) in *. set (column2 := cols B) in *.
  set (size := if _ || _ then _ else 256).
  assert (row1 <= size /\ column2 <= size) as [Hs1 Hs2].
  { unfold size. destruct (Nat.ltb_spec 256 row1); destruct (Nat.ltb_spec 256 column2); destruct (Nat.ltb_spec column2 row1);
    cbn [orb]; lia. }
  step (local_eq size s).
  set (s1 := St F (ar s) (repeat zero size)).
  assert (length (buf s1) = size) as HB by apply repeat_length.
  set (L := fun x => dot column1 (entry s A (x / column2)) (fun k => entry s B k (x mod column2))).
  assert (forall i j, i < rows R -> j < cols R ->
    L (i * cols R + j) = dot column1 (entry s A i) (fun k => entry s B k j)) as HL.
  { intros i j Hi Hj. unfold L. rewrite H3 in *. fold column2 in Hj |- *. rewrite index_div, index_mod by exact Hj. reflexivity. }
  destruct (Nat.eqb_spec (ent B) (ent R)) as [Eb|Nb]; cbn [negb].
  - (* column by column *)
    assert (ent A <> ent R) as Na. { intros E. destruct (Hal (eq_sym E)) as [_ H]. congruence. }
    destruct (for_inv F (fun i s' => part s s' (ent R) L (fun x => x < row1 * column2 /\ x mod column2 < i)
        (fun x => row1 * column2 <= x \/ i <= x mod column2) /\ length (buf s') = size)
      (fun i => bind (for_ F row1 0 (fun j => bind (acc F column1 0 (fun k x =>
           bind (get F (ent A) (j * column1 + k)) (fun p => bind (get F (ent B) (i + k * column2)) (fun q =>
             ret F (add x (mul p q))))) zero) (fun x => put_buf F j x)))
         (fun _ => for_ F row1 0 (fun j => bind (get_buf F j) (fun x => put F (ent R) (i + j * column2) x))))
      column2 0 s1) as (s' & E & P & _).
    + intros i s2 _ Hi [P B2]. cbn [Nat.add] in Hi.
      destruct (for_buf row1 (fun j => L (i + j * column2)) (fun j => bind (acc F column1 0 (fun k x =>
           bind (get F (ent A) (j * column1 + k)) (fun p => bind (get F (ent B) (i + k * column2)) (fun q =>
             ret F (add x (mul p q))))) zero) (fun x => put_buf F j x)) s2) as (s3 & E3 & A3 & B3 & C3); [rewrite B2; exact Hs1| |].
      * intros j s3 Hj A3. pose proof (part_same _ _ s3 _ _ _ _ P A3) as P3.
        rewrite (bind_done _ _ _ _ _ _ (acc_dot2 column1 (ent A) (ent B) (fun k => j * column1 + k) (fun k => i + k * column2)
          (fun k => entry s A j k) (fun k => entry s B k i) s3
          ltac:(intros k Hk; apply (part_get F zero _ _ _ _ _ _ _ _ P3); [intros Ea; congruence|nia])
          ltac:(intros k Hk; unfold MatSpec.entry; fold column2; rewrite (Nat.add_comm i); apply (part_get F zero _ _ _ _ _ _ _ _ P3);
                [intros _; right; rewrite index_mod by exact Hi; lia|assert (k < rows B) by lia; nia]))).
        unfold L. rewrite (Nat.add_comm i), index_div, index_mod by exact Hi. reflexivity.
      * rewrite (bind_done _ _ _ _ _ _ E3).
        edestruct (for_out row1 (fun j => i + j * column2) (ent R) L
          (fun j x => x < row1 * column2 /\ (x mod column2 < i \/ x mod column2 = i /\ x / column2 < j))
          (fun j x => row1 * column2 <= x \/ i < x mod column2 \/ x mod column2 = i /\ j <= x / column2) s s3)
          as (s4 & E4 & P4 & B4).
        -- rewrite B3, B2. exact Hs1.
        -- intros j Hj. rewrite H2, H3 in FR. fold column2 in FR. fold row1 in FR. nia.
        -- exact C3.
        -- intros j x Hj _ [Hx [H|[H H']]]; [left; auto|]. destruct (Nat.eq_dec (x / column2) j) as [Ej|Nj].
           ++ right. destruct (index_split column2 x ltac:(lia)) as [Ex _]. rewrite Ex, Ej, H. lia.
           ++ left. split; [exact Hx|]. right. lia.
        -- intros j x Hj Hx. assert ((i + j * column2) mod column2 = i) as Em by (rewrite Nat.add_comm; apply index_mod; exact Hi).
           assert ((i + j * column2) / column2 = j) as Ed by (rewrite Nat.add_comm; apply index_div; exact Hi). split.
           ++ destruct Hx as [Hx|[Hx|[Hx Hx']]]; [left; exact Hx|right; left; exact Hx|right; right; split; [exact Hx|lia]].
           ++ intros ->. rewrite Em, Ed in Hx. destruct Hx as [Hx|Hx]; [nia|lia].
        -- eapply part_weaken; [eapply part_same; [exact P|exact A3]| |].
           ++ intros x [Hx [H|[H H']]]; [auto|lia].
           ++ intros x [Hx|[Hx|[Hx Hx']]]; [left; exact Hx|right; lia|right; lia].
        -- exists s4. split; [exact E4|]. split; [|rewrite B4, B3; exact B2].
           eapply part_weaken; [exact P4| |].
           ++ intros x [Hx H]. split; [exact Hx|]. pose proof (index_lt column2 x row1 Hx). lia.
           ++ intros x [Hx|Hx]; [left; exact Hx|right; left; lia].
    + split; [|exact HB]. apply part_start; [reflexivity|]. intros x [_ H]. lia.
    + step E. apply part_fills with (L := L); [|unfold fits; exact FR|exact HL].
      rewrite H2, H3. fold row1 column2. eapply part_weaken; [exact P| |].
      * intros x Hx. split; [exact Hx|]. cbn [Nat.add]. destruct column2; [lia|]. apply Nat.mod_upper_bound. lia.
      * intros x Hx. left. exact Hx.
  - (* row by row *)
    destruct (for_inv F (fun i s' => part s s' (ent R) L (fun x => x < i * column2)
        (fun x => i * column2 <= x) /\ length (buf s') = size)
      (fun i => bind (for_ F column2 0 (fun j => bind (acc F column1 0 (fun k x =>
           bind (get F (ent A) (i * column1 + k)) (fun p => bind (get F (ent B) (j + k * column2)) (fun q =>
             ret F (add x (mul p q))))) zero) (fun x => put_buf F j x)))
         (fun _ => for_ F column2 0 (fun j => bind (get_buf F j) (fun x => put F (ent R) (i * column2 + j) x))))
      row1 0 s1) as (s' & E & P & _).
    + intros i s2 _ Hi [P B2]. cbn [Nat.add] in Hi.
      destruct (for_buf column2 (fun j => L (i * column2 + j)) (fun j => bind (acc F column1 0 (fun k x =>
           bind (get F (ent A) (i * column1 + k)) (fun p => bind (get F (ent B) (j + k * column2)) (fun q =>
             ret F (add x (mul p q))))) zero) (fun x => put_buf F j x)) s2) as (s3 & E3 & A3 & B3 & C3); [rewrite B2; exact Hs2| |].
      * intros j s3 Hj A3. pose proof (part_same _ _ s3 _ _ _ _ P A3) as P3.
        rewrite (bind_done _ _ _ _ _ _ (acc_dot2 column1 (ent A) (ent B) (fun k => i * column1 + k) (fun k => j + k * column2)
          (fun k => entry s A i k) (fun k => entry s B k j) s3
          ltac:(intros k Hk; apply (part_get F zero _ _ _ _ _ _ _ _ P3);
                [intros Ea; destruct (Hal (eq_sym Ea)) as [Hc _]; rewrite H3 in Hc; rewrite Hc; lia|nia])
          ltac:(intros k Hk; unfold MatSpec.entry; fold column2; rewrite (Nat.add_comm j); apply (part_get F zero _ _ _ _ _ _ _ _ P3);
                [intros Ea; congruence|assert (k < rows B) by lia; nia]))).
        unfold L. rewrite index_div, index_mod by exact Hj. reflexivity.
      * rewrite (bind_done _ _ _ _ _ _ E3).
        edestruct (for_out column2 (fun j => i * column2 + j) (ent R) L
          (fun j x => x < i * column2 + j) (fun j x => i * column2 + j <= x) s s3)
          as (s4 & E4 & P4 & B4).
        -- rewrite B3, B2. exact Hs2.
        -- intros j Hj. rewrite H2, H3 in FR. fold column2 in FR. fold row1 in FR. nia.
        -- exact C3.
        -- intros j x Hj _ Hx. lia.
        -- intros j x Hj Hx. lia.
        -- eapply part_weaken; [eapply part_same; [exact P|exact A3]| |]; cbn beta; intros x Hx; lia.
        -- exists s4. split; [exact E4|]. split; [|rewrite B4, B3; exact B2].
           eapply part_weaken; [exact P4| |]; cbn beta; intros x Hx; lia.
    + split; [|exact HB]. apply part_start; [reflexivity|]. intros x H. lia.
    + step E. apply part_fills with (L := L); [|unfold fits; exact FR|exact HL].
      rewrite H2, H3. exact P.
Qed.

(** ** A matrix and a vector *)
Lemma copy_out_ok n r L (s0 s : state) : n = length (ar s0 r) -> n <= length (buf s) -> (forall v, ar s v = ar s0 v) ->
  (forall i, i < n -> nth i (buf s) zero = L i) -> delivers zero r r n L s0 (copy_out F n r s).
Proof.
  intros Hn Hb Ha H. unfold copy_out.
  destruct (for_out n (fun i => i) r L (fun i x => x < i) (fun i x => i <= x) s0 s) as (s' & E & P & _); auto; try (intros; lia).
  - apply part_start; [exact Ha|intros; lia].
  - step E. apply part_delivers; [exact P|lia].
Qed.
Lemma TRANSFORM_mv_ok A v r (s : state) : fits s A -> length (ar s v) = cols A -> length (ar s r) = rows A ->
  delivers zero r r (rows A) (fun i => dot (cols A) (entry s A i) (elt s v)) s (TRANSFORM_mv F zero add mul A v r s).
Proof.
  intros FA Hv Hr. unfold fits in FA. unfold TRANSFORM_mv. step (cksize_eq F v (cols A) s Hv). step (cksize_eq F r (rows A) s Hr).
  set (size := if 256 <? rows A then rows A else 256).
  assert (rows A <= size) as Hs. { unfold size. destruct (Nat.ltb_spec 256 (rows A)); lia. }
  step (local_eq size s).
  destruct (for_buf (rows A) (fun i => dot (cols A) (entry s A i) (elt s v)) (fun i => bind (acc F (cols A) 0 (fun j x =>
        bind (get F (ent A) (i * cols A + j)) (fun p => bind (get F v j) (fun q => ret F (add x (mul p q))))) zero) (fun x => put_buf F i x))
      (St F (ar s) (repeat zero size))) as (s3 & E3 & A3 & B3 & C3);
    [| |rewrite (bind_done _ _ _ _ _ _ E3); apply copy_out_ok; [congruence| |exact A3|exact C3]].
  - cbn [MatModel.buf]. rewrite repeat_length. exact Hs.
  - intros i s3 Hi A3. cbn [MatModel.ar] in A3.
    rewrite (bind_done _ _ _ _ _ _ (acc_dot2 (cols A) (ent A) v (fun k => i * cols A + k) (fun k => k) (entry s A i) (elt s v) s3
      ltac:(intros k Hk; rewrite (get_eq F zero) by (rewrite A3; nia); unfold MatSpec.entry, MatSpec.elt; rewrite A3; reflexivity)
      ltac:(intros k Hk; rewrite (get_eq F zero) by (rewrite A3; lia); unfold MatSpec.elt; rewrite A3; reflexivity))). reflexivity.
  - rewrite B3. cbn [MatModel.buf]. rewrite repeat_length. exact Hs.
Qed.
Lemma TRANSFORM_vm_ok v A r (s : state) : fits s A -> length (ar s v) = rows A -> length (ar s r) = cols A ->
  delivers zero r r (cols A) (fun j => dot (rows A) (fun i => entry s A i j) (elt s v)) s (TRANSFORM_vm F zero add mul v A r s).
Proof.
  intros FA Hv Hr. unfold fits in FA. unfold TRANSFORM_vm. step (cksize_eq F v (rows A) s Hv). step (cksize_eq F r (cols A) s Hr).
  set (size := if 256 <? cols A then cols A else 256).
  assert (cols A <= size) as Hs. { unfold size. destruct (Nat.ltb_spec 256 (cols A)); lia. }
  step (local_eq size s).
  destruct (for_buf (cols A) (fun j => dot (rows A) (fun i => entry s A i j) (elt s v)) (fun i => bind (acc F (rows A) 0 (fun j x =>
        bind (get F (ent A) (i + j * cols A)) (fun p => bind (get F v j) (fun q => ret F (add x (mul p q))))) zero) (fun x => put_buf F i x))
      (St F (ar s) (repeat zero size))) as (s3 & E3 & A3 & B3 & C3);
    [| |rewrite (bind_done _ _ _ _ _ _ E3); apply copy_out_ok; [congruence| |exact A3|exact C3]].
  - cbn [MatModel.buf]. rewrite repeat_length. exact Hs.
  - intros i s3 Hi A3. cbn [MatModel.ar] in A3.
    rewrite (bind_done _ _ _ _ _ _ (acc_dot2 (rows A) (ent A) v (fun k => i + k * cols A) (fun k => k) (fun k => entry s A k i) (elt s v) s3
      ltac:(intros k Hk; rewrite (get_eq F zero) by (rewrite A3; nia); unfold MatSpec.entry, MatSpec.elt; rewrite A3, (Nat.add_comm i); reflexivity)
      ltac:(intros k Hk; rewrite (get_eq F zero) by (rewrite A3; lia); unfold MatSpec.elt; rewrite A3; reflexivity))). reflexivity.
  - rewrite B3. cbn [MatModel.buf]. rewrite repeat_length. exact Hs.
Qed.

(** ** Transposition *)
Lemma TRANSPOSE_new_ok A R (s : state) : fits s A -> fits s R -> rows R = cols A -> cols R = rows A -> ent R <> ent A ->
  fills zero R (fun i j => entry s A j i) s (TRANSPOSE F false A R s).
Proof.
  intros FA FR H1 H2 Hn. unfold TRANSPOSE. rewrite H1, H2, !Nat.eqb_refl. cbn [andb negb]. unfold fits in *.
  set (row := rows A) in *. set (column := cols A) in *. rewrite H1, H2 in FR.
  set (L := fun x => elt s (ent A) ((x mod row) * column + x / row)).
  edestruct (for_inv F (fun i s' => part s s' (ent R) L (fun x => x < column * row /\ x mod row < i)
        (fun x => column * row <= x \/ i <= x mod row))) with (body := fun i => for_ F column 0 (fun j => bind (get F (ent A) (i * column + j)) (fun x => put F (ent R) (j * row + i) x))) (n := row) (from := 0) (s := s) as (s' & E & P).
  - intros i s1 _ Hi P. cbn [Nat.add] in Hi.
    edestruct (for_inv F (fun j s' => part s s' (ent R) L
          (fun x => x < column * row /\ (x mod row < i \/ x mod row = i /\ x / row < j))
          (fun x => column * row <= x \/ i < x mod row \/ x mod row = i /\ j <= x / row))) with (body := (fun j => bind (get F (ent A) (i * column + j)) (fun x => put F (ent R) (j * row + i) x))) (n := column) (from := 0) (s := s1)
      as (s2 & E2 & P2).
    + intros j s2 _ Hj P2. cbn [Nat.add] in Hj.
      rewrite (bind_done _ _ _ _ _ _ (part_get F zero _ _ _ _ _ _ (ent A) (i * column + j) P2 ltac:(congruence) ltac:(nia))).
      assert (elt s (ent A) (i * column + j) = L (j * row + i)) as ->.
      { unfold L. rewrite index_div, index_mod by exact Hi. reflexivity. }
      destruct (part_put F zero _ _ _ _ _ _
         (fun x => x < column * row /\ (x mod row < i \/ x mod row = i /\ x / row < S j))
         (fun x => column * row <= x \/ i < x mod row \/ x mod row = i /\ S j <= x / row) (j * row + i) P2)
        as (s3 & E3 & P3 & _); [nia| | |exists s3; split; assumption].
      * intros x _ [Hx [H|[H H']]]; [left; auto|]. destruct (Nat.eq_dec (x / row) j) as [Ej|Nj].
        -- right. destruct (index_split row x ltac:(lia)) as [Ex _]. rewrite Ex, Ej, H. reflexivity.
        -- left. split; [exact Hx|]. right. lia.
      * intros x Hx. split; [destruct Hx as [Hx|[Hx|[Hx Hx']]]; [left; exact Hx|right; left; exact Hx|right; right; split; [exact Hx|lia]]|].
        intros ->. rewrite index_div, index_mod in Hx by exact Hi. destruct Hx as [Hx|Hx]; [nia|lia].
    + eapply part_weaken; [exact P| |].
      * intros x [Hx [H|[H H']]]; [auto|lia].
      * intros x [Hx|[Hx|[Hx Hx']]]; [left; exact Hx|right; lia|right; lia].
    + exists s2. split; [exact E2|]. eapply part_weaken; [exact P2| |].
      * intros x [Hx H]. split; [exact Hx|]. pose proof (index_lt row x column Hx). lia.
      * intros x [Hx|Hx]; [left; exact Hx|right; left; lia].
  - apply part_start; [reflexivity|]. intros x [_ H]. lia.
  - step E. apply part_fills with (L := L).
    + rewrite H1, H2. eapply part_weaken; [exact P| |].
      * intros x Hx. split; [exact Hx|]. cbn [Nat.add]. destruct row; [lia|]. apply Nat.mod_upper_bound. lia.
      * intros x Hx. left. exact Hx.
    + unfold fits. rewrite H1, H2. exact FR.
    + intros i j Hi Hj. rewrite H2 in *. unfold L. rewrite index_div, index_mod by exact Hj. reflexivity.
Qed.
Lemma TRANSPOSE_same_ok A (s : state) : fits s A -> rows A = cols A ->
  fills zero A (fun i j => entry s A j i) s (TRANSPOSE F true A A s).
Proof.
  intros FA Hsq. unfold TRANSPOSE. rewrite Hsq, Nat.eqb_refl. cbn [andb negb]. unfold fits in *. rewrite Hsq in FA.
  set (n := cols A) in *. set (r := ent A) in *.
  set (L := fun x => elt s r ((x mod n) * n + x / n)).
  set (hi := fun x => Nat.max (x / n) (x mod n)). set (lo := fun x => Nat.min (x / n) (x mod n)).
  edestruct (for_inv F (fun i s' => part s s' r L (fun x => x < n * n /\ hi x < i) (fun x => n * n <= x \/ i <= hi x)))
    with (body := fun i => for_ F (S i) 0 (fun j => bind (get F r (j * n + i)) (fun x => bind (get F r (n * i + j)) (fun y => bind (put F r (j * n + i) y) (fun _ => put F r (n * i + j) x))))) (n := n) (from := 0) (s := s) as (s' & E & P).
  - intros i s1 _ Hi P. cbn [Nat.add] in Hi.
    edestruct (for_inv F (fun j s' => part s s' r L
          (fun x => x < n * n /\ (hi x < i \/ hi x = i /\ lo x < j))
          (fun x => n * n <= x \/ i < hi x \/ hi x = i /\ j <= lo x))) with (body := (fun j => bind (get F r (j * n + i)) (fun x => bind (get F r (n * i + j)) (fun y => bind (put F r (j * n + i) y) (fun _ => put F r (n * i + j) x))))) (n := S i) (from := 0) (s := s1)
      as (s2 & E2 & P2).
    + intros j s2 _ Hj P2. cbn [Nat.add] in Hj. assert (j < n) as Hjn by lia. assert (j <= i) as Hji by lia.
      assert (hi (j * n + i) = i /\ lo (j * n + i) = j) as [Ha1 Ha2].
      { unfold hi, lo. rewrite index_div, index_mod by exact Hi. lia. }
      assert (hi (i * n + j) = i /\ lo (i * n + j) = j) as [Hb1 Hb2].
      { unfold hi, lo. rewrite index_div, index_mod by exact Hjn. lia. }
      assert (j * n + i < n * n) as Hba by nia. assert (i * n + j < n * n) as Hbb by nia.
      rewrite (Nat.mul_comm n i).
      rewrite (bind_done _ _ _ _ _ _ (part_get F zero _ _ _ _ _ _ r (j * n + i) P2 ltac:(intros _; right; right; lia) ltac:(lia))).
      rewrite (bind_done _ _ _ _ _ _ (part_get F zero _ _ _ _ _ _ r (i * n + j) P2 ltac:(intros _; right; right; lia) ltac:(lia))).
      assert (elt s r (i * n + j) = L (j * n + i)) as ->. { unfold L. rewrite index_div, index_mod by exact Hi. reflexivity. }
      assert (elt s r (j * n + i) = L (i * n + j)) as ->. { unfold L. rewrite index_div, index_mod by exact Hjn. reflexivity. }
      destruct (part_put F zero _ _ _ _ _ _
         (fun x => (x < n * n /\ (hi x < i \/ hi x = i /\ lo x < j)) \/ x = j * n + i)
         (fun x => (n * n <= x \/ i < hi x \/ hi x = i /\ j <= lo x) /\ x <> j * n + i) (j * n + i) P2)
        as (s3 & E3 & P3 & _); [lia|intros x _ H; exact H|intros x H; exact H|].
      rewrite (bind_done _ _ _ _ _ _ E3).
      destruct (part_put F zero _ _ _ _ _ _
         (fun x => x < n * n /\ (hi x < i \/ hi x = i /\ lo x < S j))
         (fun x => n * n <= x \/ i < hi x \/ hi x = i /\ S j <= lo x) (i * n + j) P3)
        as (s4 & E4 & P4 & _); [lia| | |exists s4; split; assumption].
      * intros x _ [Hx [H|[H H']]]; [left; left; auto|]. destruct (Nat.eq_dec (lo x) j) as [Ej|Nj].
        -- destruct (index_split n x ltac:(lia)) as [Ex Em].
           destruct (Nat.le_ge_cases (x / n) (x mod n)) as [Hle|Hle].
           ++ left. right. assert (x / n = j /\ x mod n = i) as [D1 D2] by (unfold hi, lo in *; lia). rewrite Ex, D1, D2. reflexivity.
           ++ right. assert (x / n = i /\ x mod n = j) as [D1 D2] by (unfold hi, lo in *; lia). rewrite Ex, D1, D2. reflexivity.
        -- left. left. split; [exact Hx|]. right. lia.
      * intros x Hx. split; [split|].
        -- destruct Hx as [Hx|[Hx|[Hx Hx']]]; [left; exact Hx|right; left; exact Hx|right; right; lia].
        -- intros ->. rewrite Ha1, Ha2 in Hx. lia.
        -- intros ->. rewrite Hb1, Hb2 in Hx. lia.
    + eapply part_weaken; [exact P| |].
      * intros x [Hx [H|[H H']]]; [auto|lia].
      * intros x [Hx|[Hx|[Hx Hx']]]; [left; exact Hx|right; lia|right; lia].
    + exists s2. split; [exact E2|]. eapply part_weaken; [exact P2| |].
      * intros x [Hx H]. split; [exact Hx|]. unfold hi, lo in *. lia.
      * intros x [Hx|Hx]; [left; exact Hx|right; left; lia].
  - apply part_start; [reflexivity|]. intros x [_ H]. lia.
  - step E. apply part_fills with (L := L).
    + rewrite Hsq. fold r n. eapply part_weaken; [exact P| |].
      * intros x Hx. split; [exact Hx|]. cbn [Nat.add]. pose proof (index_lt n x n Hx).
        destruct (index_split n x ltac:(lia)) as [_ Hm]. unfold hi. lia.
      * intros x Hx. left. exact Hx.
    + unfold fits. rewrite Hsq. exact FA.
    + intros i j Hi Hj. fold n. unfold L. rewrite index_div, index_mod by exact Hj. reflexivity.
Qed.

(** ** Rotation of a vector about an axis *)
Lemma ROTVEC_ok v c sn a r (s : state) : let n := match a with ANil => 2 | _ => 3 end in
  n <= length (ar s v) -> n <= length (ar s r) ->
  let x := elt s v 0 in let y := elt s v 1 in let z := elt s v 2 in
  delivers zero r r n (fun i => nth i match a with
    | AX => [x; add (mul c y) (mul (neg sn) z); add (mul sn y) (mul c z)]
    | AY => [add (mul c x) (mul sn z); y; add (mul (neg sn) x) (mul c z)]
    | AZ => [add (mul c x) (mul (neg sn) y); add (mul sn x) (mul c y); z]
    | ANil => [add (mul c x) (mul (neg sn) y); add (mul sn x) (mul c y)]
    end zero) s (ROTVEC F add mul neg v c sn a r s).
Proof.
  intros n Hv Hr x y z.
  match goal with |- delivers _ _ _ _ ?l _ _ => set (L := l) end.
  pose proof (part_start F zero s s r L (fun x => False) (fun x => True) (fun _ => eq_refl) (fun _ H => H)) as P0.
  assert (forall i, i < n -> get F v i s = Done F (elt s v i) s) as Hg by (intros i Hi; apply get_eq; lia).
  assert (forall k1 k2, k1 < n -> k2 < n -> k1 <> k2 -> exists s2,
    bind (put F r k1 (L k1)) (fun _ => put F r k2 (L k2)) s = Done F tt s2 /\
    part s s2 r L (fun x => x = k1 \/ x = k2) (fun x => x <> k1 /\ x <> k2)) as H2.
  { intros k1 k2 Hk1 Hk2 Hne.
    destruct (part_put F zero _ _ _ _ _ _ (fun x => x = k1) (fun x => x <> k1) k1 P0) as (s1 & E1 & P1 & _); [lia|auto|auto|].
    destruct (part_put F zero _ _ _ _ _ _ (fun x => x = k1 \/ x = k2) (fun x => x <> k1 /\ x <> k2) k2 P1) as (s2 & E2 & P2 & _);
      [lia|auto|auto|]. exists s2. split; [rewrite (bind_done _ _ _ _ _ _ E1); exact E2|exact P2]. }
  assert (forall k1 k2 k3, k1 < n -> k2 < n -> k3 < n -> k1 <> k2 -> k3 <> k1 -> k3 <> k2 -> L k3 = elt s v k3 -> exists s3,
    bind (put F r k1 (L k1)) (fun _ => bind (put F r k2 (L k2)) (fun _ =>
      bind (bind (get F v k3) (fun x => put F r k3 x)) (fun _ => ret F r))) s = Done F r s3 /\
    part s s3 r L (fun x => x = k1 \/ x = k2 \/ x = k3) (fun x => x <> k1 /\ x <> k2 /\ x <> k3)) as H3.
  { intros k1 k2 k3 Hk1 Hk2 Hk3 Hne Hn1 Hn2 HL. destruct (H2 k1 k2 Hk1 Hk2 Hne) as (s2 & E2 & P2).
    destruct (part_put F zero _ _ _ _ _ _ (fun x => x = k1 \/ x = k2 \/ x = k3) (fun x => x <> k1 /\ x <> k2 /\ x <> k3) k3 P2)
      as (s3 & E3 & P3 & _); [lia|intros; tauto|intros; tauto|].
    exists s3. split; [|exact P3]. unfold MatModel.bind in E2 |- *. destruct (put F r k1 (L k1) s); try discriminate.
    rewrite E2. rewrite (part_get F zero _ _ _ _ _ _ v k3 P2); [rewrite <- HL, E3; reflexivity|intros _; split; assumption|lia]. }
  unfold ROTVEC. destruct a; cbn [rot_axis]; unfold n in *.
  - step (Hg 1 ltac:(lia)). step (Hg 2 ltac:(lia)).
    destruct (H3 1 2 0) as (s' & E & P); try lia; [reflexivity|]. eapply eq_ind_r with (P := delivers zero r r 3 L s); [|exact E]. apply part_delivers; [|lia].
    eapply part_weaken; [exact P| |]; cbn beta; intros; lia.
  - step (Hg 0 ltac:(lia)). step (Hg 2 ltac:(lia)).
    destruct (H3 0 2 1) as (s' & E & P); try lia; [reflexivity|]. eapply eq_ind_r with (P := delivers zero r r 3 L s); [|exact E]. apply part_delivers; [|lia].
    eapply part_weaken; [exact P| |]; cbn beta; intros; lia.
  - step (Hg 0 ltac:(lia)). step (Hg 1 ltac:(lia)).
    destruct (H3 0 1 2) as (s' & E & P); try lia; [reflexivity|]. eapply eq_ind_r with (P := delivers zero r r 3 L s); [|exact E]. apply part_delivers; [|lia].
    eapply part_weaken; [exact P| |]; cbn beta; intros; lia.
  - step (Hg 0 ltac:(lia)). step (Hg 1 ltac:(lia)).
    destruct (H2 0 1) as (s' & E & P); try lia. unfold MatModel.bind in E |- *.
    change (add (mul c (elt s v 0)) (mul (neg sn) (elt s v 1))) with (L 0).
    change (add (mul sn (elt s v 0)) (mul c (elt s v 1))) with (L 1).
    destruct (put F r 0 (L 0) s); try discriminate. rewrite E. cbn [ret]. unfold ret. apply part_delivers; [|lia].
    eapply part_weaken; [exact P| |]; cbn beta; intros; lia.
Qed.
End Proofs.
