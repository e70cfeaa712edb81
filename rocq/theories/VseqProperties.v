(** C89: the sequence functions take parts, copy, reverse, join, convert, fill and map sequences of every kind as lists of elements. *)
From Coq Require Import Lia.
From Verif Require Import VecProofs VseqModel VseqSpec VseqProofs VseqProofs2 VseqProofs3 VseqProofs4.
Open Scope Z_scope.

(** a new sequence, of the same kind, with these elements *)
Definition gives (q : sequ) (l : list value) (o : out sequ) : Prop := exists r, o = Ret r /\ proper r /\ sort_of r = sort_of q /\ (forall a, r <> Arr a) /\ contents r = l.

Module Ex.
Definition bits := VBit 5 [22].                       (* 0 1 1 0 1 *)
Definition ints := VInt [10; 20; 30; 40; 50].
Definition window := Arr (mkArr [3] None 1 ints).               (* displaced to ints from 1: 20 30 40 *)
Definition tail := Arr (mkArr [3] None 2 ints).                 (* 30 40 50 *)
Definition word := VByte 3 [97; 98; 99; 0; 0; 0; 0; 0].
Lemma bits_ok : proper (Vec bits). Proof. split; [reflexivity|]. constructor; [lia|constructor]. Qed.
Lemma word_ok : proper (Vec word). Proof. split; [reflexivity|]. repeat (constructor; [lia|]). constructor. Qed.
Lemma ints_ok : wf_vec ints. Proof. repeat (constructor; [unfold in_long; lia|]). constructor. Qed.
Lemma window_ok : proper window. Proof. split; [exact ints_ok|]. exists 3. cbn. repeat split; lia. Qed.
Lemma tail_ok : proper tail /\ to_end tail. Proof. split; [|reflexivity]. split; [exact ints_ok|]. exists 3. cbn. repeat split; lia. Qed.
Example tail_contents : contents tail = [Int 30; Int 40; Int 50]. Proof. reflexivity. Qed.
Example bits_contents : contents (Vec bits) = [Int 0; Int 1; Int 1; Int 0; Int 1]. Proof. reflexivity. Qed.
End Ex.

(** Full claim: for every sequence and 0 <= s <= e <= its length, (subseq q s e) is a new sequence of the same kind holding elements s to e-1, and
    (subseq q s) the elements from s on.  Missing: a list refuses s equal to its length, and without an end an array is read to the end of the vector
    that it is displaced to (both refuted below). *)
Theorem C89_subseq_partial : forall q s e, proper q -> 0 <= s <= e -> e <= Z.of_nat (length (contents q)) -> (sort_of q = KList -> contents q = [] \/ s < Z.of_nat (length (contents q))) ->
  gives q (firstn (Z.to_nat (e - s)) (skipn (Z.to_nat s) (contents q))) (SUBSEQ q s (Some e)).
Proof.
  intros q s e P Hs He Hl. unfold SUBSEQ. destruct (Z.ltb_spec e s); [lia|]. destruct q as [l|v|a]; cbn [contents sort_of] in *.
  - specialize (Hl eq_refl). destruct l as [|x l]; [exists (Lst []); repeat (split; [reflexivity || exact Logic.I || discriminate|]); rewrite skipn_nil, firstn_nil; reflexivity|].
    destruct Hl as [Hl|Hl]; [discriminate|]. destruct (skipn (Z.to_nat s) (x :: l)) as [|y m] eqn:E.
    + exfalso. assert (length (skipn (Z.to_nat s) (x :: l)) = 0%nat) as L by (rewrite E; reflexivity). rewrite skipn_length in L. lia.
    + eexists. split; [reflexivity|]. repeat (split; [reflexivity || exact Logic.I || discriminate|]). reflexivity.
  - rewrite elements_length in He by exact P. destruct (subseq_copied v s e (Some e) P Hs He) as (r & Er & Wr & Kr & C); [auto|]. exists (Vec r). repeat (split; [assumption || discriminate|]). exact C.
  - destruct P as (W & d & Ed & H1 & H2 & H3). rewrite Ed in *. cbn [nth] in *. rewrite size_part in He by (auto; lia).
    destruct (subseq_copied (a_ent a) (s + a_off a) (e + a_off a) (Some (e + a_off a)) W) as (r & Er & Wr & Kr & C); [lia|lia|auto|].
    exists (Vec r). cbn [option_map]. repeat (split; [assumption || discriminate|]). cbn [contents]. rewrite C. apply (nth_ext' _ _ (Int 0)).
    + rewrite size_part by (auto; lia). rewrite firstn_length, skipn_length, size_part by (auto; lia). lia.
    + intros i Hi. rewrite size_part in Hi by (auto; lia). rewrite !nth_part by lia. f_equal. lia.
Qed.
Print Assumptions C89_subseq_partial.
Theorem C89_subseq_rest_partial : forall q s, proper q -> to_end q -> 0 <= s <= Z.of_nat (length (contents q)) -> (sort_of q = KList -> contents q = [] \/ s < Z.of_nat (length (contents q))) ->
  gives q (skipn (Z.to_nat s) (contents q)) (SUBSEQ q s None).
Proof.
  intros q s P T Hs Hl. unfold SUBSEQ. destruct q as [l|v|a]; cbn [contents sort_of] in *.
  - specialize (Hl eq_refl). destruct l as [|x l]; [exists (Lst []); repeat (split; [reflexivity || exact Logic.I || discriminate|]); rewrite skipn_nil; reflexivity|].
    destruct Hl as [Hl|Hl]; [discriminate|]. destruct (skipn (Z.to_nat s) (x :: l)) as [|y m] eqn:E.
    + exfalso. assert (length (skipn (Z.to_nat s) (x :: l)) = 0%nat) as L by (rewrite E; reflexivity). rewrite skipn_length in L. lia.
    + eexists. split; [reflexivity|]. repeat (split; [reflexivity || exact Logic.I || discriminate|]). reflexivity.
  - rewrite elements_length in Hs by exact P. destruct (subseq_copied v s (Z.of_nat (vecsize v)) None P) as (r & Er & Wr & Kr & C); [lia|lia|auto|]. exists (Vec r). repeat (split; [assumption || discriminate|]). cbn [contents]. rewrite C.
    apply firstn_all2. rewrite skipn_length, elements_length by exact P. lia.
  - destruct P as (W & d & Ed & H1 & H2 & H3). cbn [to_end] in T. rewrite Ed in *. cbn [nth] in *. rewrite size_part in Hs by (auto; lia).
    destruct (subseq_copied (a_ent a) (s + a_off a) (Z.of_nat (vecsize (a_ent a))) None W) as (r & Er & Wr & Kr & C); [lia|lia|auto|].
    exists (Vec r). cbn [option_map]. repeat (split; [assumption || discriminate|]). cbn [contents]. rewrite C. apply (nth_ext' _ _ (Int 0)).
    + rewrite size_part by (auto; lia). rewrite skipn_length, size_part by (auto; lia). lia.
    + intros i Hi. rewrite size_part in Hi by (auto; lia). rewrite nth_part by lia. rewrite nth_skipn', nth_part by lia. f_equal. lia.
Qed.
Print Assumptions C89_subseq_rest_partial.
Example C89_subseq_example : SUBSEQ Ex.window 1 (Some 3) = Ret (Vec (VInt [30; 40])) /\ SUBSEQ (Vec Ex.word) 1 None = Ret (Vec (VByte 2 [98; 99; 0; 0; 0; 0; 0; 0])) /\
  (exists w, SUBSEQ (Vec Ex.bits) 1 (Some 4) = Ret (Vec w) /\ elements w = [Int 1; Int 1; Int 0]).
Proof. split; [reflexivity|]. split; [reflexivity|]. eexists. split; vm_compute; reflexivity. Qed.
(** (subseq '(a b) 2) is an error although (subseq "ab" 2) is ""; the displaced window is read beyond its end; and a start beyond the end of a vector
    is not noticed: a vector of negative length is asked for. *)
Theorem C89_subseq_refuted : SUBSEQ (Lst [Obj 1; Obj 2]) 2 None = Error /\ (exists q, SUBSEQ (Vec (VPtr [Obj 1; Obj 2])) 2 None = Ret q /\ contents q = []) /\
  (exists q, SUBSEQ Ex.window 1 None = Ret q /\ contents q = [Int 30; Int 40; Int 50] /\ skipn 1 (contents Ex.window) = [Int 30; Int 40]) /\
  SUBSEQ (Vec Ex.ints) 7 None = Undef.
Proof. split; [reflexivity|]. split; [eexists; split; reflexivity|]. split; [|reflexivity]. eexists. repeat split; reflexivity. Qed.
Print Assumptions C89_subseq_refuted.

(** Full claim: copy-seq makes a sequence with the same elements.  Missing: arrays that are not their whole vector (refuted below). *)
Theorem C89_copy_partial : forall q, proper q -> (forall a, q = Arr a -> a_off a = 0 /\ to_end q) -> gives q (contents q) (COPYSEQ q).
Proof.
  intros [l|v|a] P H; unfold COPYSEQ.
  - exists (Lst l). repeat (split; [reflexivity || exact Logic.I || discriminate|]). reflexivity.
  - destruct (copied_all v (copyseq_vec v) P (copyseq_copied v P)) as (r & E & W & K & C). exists (Vec r). repeat (split; [assumption || discriminate|]). exact C.
  - destruct (H a eq_refl) as [H0 T]. destruct P as (W & d & Ed & H1 & H2 & H3). cbn [to_end] in T. rewrite Ed in *. cbn [length Nat.ltb Nat.leb nth] in *.
    destruct (copied_all (a_ent a) (copyseq_vec (a_ent a)) W (copyseq_copied _ W)) as (r & E & Wr & K & C). exists (Vec r). repeat (split; [assumption || discriminate|]). cbn [contents]. rewrite C, Ed, H0. cbn [nth Z.to_nat skipn].
    rewrite firstn_all2; [reflexivity|]. rewrite elements_length by exact W. lia.
Qed.
Print Assumptions C89_copy_partial.
Theorem C89_copy_refuted : exists q r, proper q /\ COPYSEQ q = Ret r /\ contents q = [Int 20; Int 30; Int 40] /\ contents r = [Int 10; Int 20; Int 30; Int 40; Int 50].
Proof. exists Ex.window. eexists. split; [exact Ex.window_ok|]. repeat split; reflexivity. Qed.
Print Assumptions C89_copy_refuted.
Example C89_copy_example : exists w, COPYSEQ (Vec Ex.bits) = Ret (Vec w) /\ elements w = elements Ex.bits.
Proof. eexists. split; vm_compute; reflexivity. Qed.

Theorem C89_reverse : forall q, proper q -> gives q (rev (contents q)) (REVERSE q).
Proof.
  intros q P. destruct q as [l|v|a] eqn:E; [exists (Lst (rev l)); repeat (split; [reflexivity || exact Logic.I || discriminate|]); reflexivity|..];
  rewrite <- E in *; destruct (reverse_ok q P) as (r & Er & Wr & Kr & C); [rewrite E; cbn; destruct v; discriminate| |rewrite E; cbn; destruct (a_ent a); discriminate|];
  exists (Vec r); repeat (split; [assumption || discriminate|]); exact C.
Qed.
Print Assumptions C89_reverse.
Example C89_reverse_example : REVERSE Ex.window = Ret (Vec (VInt [40; 30; 20])) /\ (exists w, REVERSE (Vec Ex.bits) = Ret (Vec w) /\ elements w = [Int 1; Int 0; Int 1; Int 1; Int 0]).
Proof. split; [reflexivity|]. eexists. split; vm_compute; reflexivity. Qed.

(** Full claim: nreverse reverses the elements in place, and nothing else of the vector changes.  Missing: arrays displaced by an offset (refuted below). *)
Theorem C89_nreverse_partial : forall q v k, proper q -> part q = Ret (v, 0, k) -> wf_vec v -> 0 <= k <= Z.of_nat (vecsize v) ->
  contents q = firstn (Z.to_nat k) (elements v) /\
  exists v', NREVERSE q = Ret v' /\ wf_vec v' /\ kind_of v' = kind_of v /\ elements v' = rev (contents q) ++ skipn (Z.to_nat k) (elements v).
Proof.
  intros q v k P E W Hk. assert (contents q = firstn (Z.to_nat k) (elements v)) as C.
  { destruct q as [l|w|a]; cbn [part] in E; [discriminate| |]; [injection E as -> <-; cbn [contents]; rewrite Nat2Z.id, firstn_all2 by (rewrite elements_length by exact W; lia); reflexivity|].
    destruct P as (_ & d & Ed & _). cbn [contents]. rewrite Ed in *. injection E as <- E0 <-. rewrite E0. reflexivity. }
  split; [exact C|]. destruct (nreverse_ok q v k P E W Hk) as (v' & E' & W' & K' & S' & H'). exists v'. rewrite C. auto.
Qed.
Print Assumptions C89_nreverse_partial.
Example C89_nreverse_example : NREVERSE (Arr (mkArr [3] None 0 Ex.ints)) = Ret (VInt [30; 20; 10; 40; 50]) /\ (exists w, NREVERSE (Vec Ex.bits) = Ret w /\ elements w = [Int 1; Int 0; Int 1; Int 1; Int 0]).
Proof. split; [reflexivity|]. eexists. split; vm_compute; reflexivity. Qed.
(** the window 20 30 40 becomes 30 20 40, and its neighbour outside is unharmed only by luck: the other end is counted without the offset *)
Theorem C89_nreverse_refuted : exists v', NREVERSE Ex.window = Ret v' /\ v' = VInt [10; 30; 20; 40; 50] /\ rev (contents Ex.window) = [Int 40; Int 30; Int 20].
Proof. eexists. repeat split; reflexivity. Qed.
Print Assumptions C89_nreverse_refuted.

(** Full claim: (concatenate kind q1 q2 ...) holds the elements of all of them, in order, each as that kind keeps it, or is an error if one cannot be kept.
    Missing: arrays that end before their vector (refuted below). *)
Theorem C89_concatenate_partial : forall k qs, qs <> [] -> Forall proper qs -> Forall to_end qs -> makes k (concat (map contents qs)) (CONCATENATE k qs).
Proof. exact concatenate_ok. Qed.
Print Assumptions C89_concatenate_partial.
Example C89_concatenate_example : CONCATENATE KByte [Vec Ex.word; Ex.tail; Lst [Int 300]] = Ret (Vec (VByte 7 [97; 98; 99; 30; 40; 50; 44; 0])) /\
  CONCATENATE KBit [Lst [Obj 4]] = Error /\ (exists w, CONCATENATE KBit [Lst [Int 3; Int 2]; Vec Ex.bits] = Ret (Vec w) /\ elements w = [Int 1; Int 0; Int 0; Int 1; Int 1; Int 0; Int 1]).
Proof. split; [reflexivity|]. split; [reflexivity|]. eexists. split; vm_compute; reflexivity. Qed.
Theorem C89_concatenate_refuted : (exists q, CONCATENATE KList [Ex.window; Lst [Obj 1]] = Ret q /\ contents q = [Int 20; Int 30; Int 40; Int 50; Obj 1]) /\ CONCATENATE KByte [] = Ret (Lst []).
Proof. split; [|reflexivity]. eexists. split; reflexivity. Qed.
Print Assumptions C89_concatenate_refuted.

Theorem C89_coerce : forall q k, proper q -> makes k (contents q) (COERCE q k).
Proof. intros q k P. exact (coerce_ok k q P). Qed.
Print Assumptions C89_coerce.
(** A round trip: a vector that can hold what is in a sequence gives it back. *)
Theorem C89_coerce_back : forall q k r, proper q -> COERCE q k = Ret r -> keep_all k (contents q) = Some (contents q) -> COERCE r KList = Ret (Lst (contents q)).
Proof.
  intros q k r P E K. pose proof (coerce_ok k q P) as M. unfold makes in M. rewrite K in M. destruct M as (r' & E' & Pr & _ & _ & C). rewrite E in E'. injection E' as <-.
  pose proof (coerce_ok KList r Pr) as M. unfold makes in M. rewrite keep_list in M. destruct M as (l & El & _ & Kl & Nl & Cl). rewrite El. f_equal. rewrite <- C, <- Cl. destruct l as [l|v|a]; [reflexivity|cbn in Kl; destruct v; discriminate|exfalso; exact (Nl a eq_refl)].
Qed.
Print Assumptions C89_coerce_back.
Example C89_coerce_example : COERCE Ex.window KList = Ret (Lst [Int 20; Int 30; Int 40]) /\ COERCE (Lst [Int 20; Int 30; Int 40]) KInt = Ret (Vec (VInt [20; 30; 40])) /\
  keep_all KInt (contents Ex.window) = Some (contents Ex.window) /\ COERCE (Vec Ex.word) KPtr = Ret (Vec (VPtr [Int 97; Int 98; Int 99])).
Proof. repeat split; reflexivity. Qed.

(** Full claim: (fill q x :start s :end e) makes elements s to e-1 what q's kind keeps of x and changes nothing else, not even in the vector of a displaced array.
    Missing: a bit vector filled with another number than 0 and 1 (refuted below). *)
Theorem C89_fill_partial : forall q x y s e, proper q -> sort_of q <> KList -> kept (sort_of q) x = Some y -> (sort_of q = KBit -> y = x) -> 0 <= s -> e <= Z.of_nat (length (contents q)) ->
  exists r, FILL q x s e = Ret r /\ proper r /\ sort_of r = sort_of q /\
    length (contents r) = length (contents q) /\ (forall m, (m < length (contents q))%nat -> nth m (contents r) NIL = if (s <=? Z.of_nat m) && (Z.of_nat m <? e) then y else nth m (contents q) NIL) /\
    (forall a b, q = Arr a -> r = Arr b -> a_dims b = a_dims a /\ a_off b = a_off a /\ forall m, (m < vecsize (a_ent a))%nat -> (Z.of_nat m < a_off a \/ a_off a + Z.of_nat (length (contents q)) <= Z.of_nat m) -> nth m (elements (a_ent b)) NIL = nth m (elements (a_ent a)) NIL).
Proof.
  intros q x y s e P K Kx B Hs He. destruct q as [l|v|a]; cbn [sort_of contents proper FILL] in *; [congruence| |].
  - rewrite elements_length in * by exact P. rewrite Z.min_l by lia. destruct (fill_vec_ok v x y s e P Kx B Hs He) as (v' & E & W' & K' & S' & H'). rewrite E. cbn [bind]. exists (Vec v'). cbn [proper sort_of contents].
    split; [reflexivity|]. split; [exact W'|]. split; [exact K'|]. rewrite elements_length by exact W'. split; [exact S'|]. split; [|discriminate]. intros m Hm.
    rewrite (nth_indep _ NIL (Int 0)), (nth_indep (elements v) NIL (Int 0)) by (rewrite elements_length by assumption; lia). apply H'. exact Hm.
  - destruct P as (W & d & Ed & H1 & H2 & H3). rewrite Ed in *. cbn [nth] in *. rewrite size_part in * by (auto; lia). rewrite Z.min_l by lia.
    destruct (fill_vec_ok (a_ent a) x y (s + a_off a) (e + a_off a) W Kx B) as (v' & E & W' & K' & S' & H'); [lia|lia|]. rewrite E. cbn [bind]. eexists. split; [reflexivity|]. cbn [proper sort_of contents a_dims a_off a_ent nth].
    split. { split; [exact W'|]. exists d. rewrite S'. auto. } split; [exact K'|]. rewrite size_part by (auto; lia). split; [reflexivity|]. split.
    + intros m Hm. rewrite (nth_indep _ NIL (Int 0)) by (rewrite size_part by (auto; lia); lia). rewrite (nth_indep (firstn _ (skipn _ (elements (a_ent a)))) NIL (Int 0)) by (rewrite size_part by (auto; lia); lia). rewrite !nth_part by lia. rewrite H' by lia.
      destruct (Z.leb_spec (s + a_off a) (Z.of_nat (Z.to_nat (a_off a) + m))), (Z.leb_spec s (Z.of_nat m)), (Z.ltb_spec (Z.of_nat (Z.to_nat (a_off a) + m)) (e + a_off a)), (Z.ltb_spec (Z.of_nat m) e); try lia; reflexivity.
    + intros a0 b [= <-] [= <-]. cbn [a_dims a_off a_ent]. split; [symmetry; exact Ed|]. split; [reflexivity|]. intros m Hm Ho. rewrite (nth_indep _ NIL (Int 0)), (nth_indep (elements (a_ent a)) NIL (Int 0)) by (rewrite elements_length by assumption; lia).
      rewrite H' by exact Hm. destruct (Z.leb_spec (s + a_off a) (Z.of_nat m)), (Z.ltb_spec (Z.of_nat m) (e + a_off a)); try lia; reflexivity.
Qed.
Print Assumptions C89_fill_partial.
Theorem C89_fill_list : forall l x s e, l <> [] -> 0 <= s <= e -> exists r, FILL (Lst l) x s e = Ret (Lst r) /\ length r = length l /\
  forall m, (m < length l)%nat -> nth m r NIL = if (s <=? Z.of_nat m) && (Z.of_nat m <? e) then x else nth m l NIL.
Proof.
  intros l x s e N Hs. destruct l as [|x0 l0] eqn:El; [congruence|]. rewrite <- El. unfold FILL. rewrite El. rewrite <- El. eexists. split; [reflexivity|]. split.
  - rewrite !app_length, firstn_length, repeat_length, skipn_length. lia.
  - intros m Hm. rewrite !nth_app', firstn_length, repeat_length, nth_firstn', nth_skipn'.
    destruct (Z.leb_spec s (Z.of_nat m)), (Z.ltb_spec (Z.of_nat m) e), (Nat.ltb_spec m (Nat.min (Z.to_nat s) (length l))), (Nat.ltb_spec m (Z.to_nat s)), (Nat.ltb_spec (m - Nat.min (Z.to_nat s) (length l)) (Nat.min (Z.to_nat (e - s)) (length l - Z.to_nat s))); try (exfalso; lia); cbn [andb]; try reflexivity.
    all: try (apply nth_repeat'; lia). all: f_equal; lia.
Qed.
Print Assumptions C89_fill_list.
Example C89_fill_example : FILL Ex.window (Int 7) 1 3 = Ret (Arr (mkArr [3] None 1 (VInt [10; 20; 7; 7; 50]))) /\ FILL (Lst [Obj 1; Obj 2; Obj 3]) (Int 0) 1 9 = Ret (Lst [Obj 1; Int 0; Int 0]) /\
  (exists w, FILL (Vec (VBit 130 [0; 0; 0])) (Int 1) 63 129 = Ret (Vec w) /\ elements w = repeat (Int 0) 63 ++ repeat (Int 1) 66 ++ [Int 0]).
Proof. split; [reflexivity|]. split; [reflexivity|]. eexists. split; [reflexivity|]. vm_compute. reflexivity. Qed.
(** filling 66 bits with 2: whole words become ones, the bits at the edges zeros *)
Theorem C89_fill_refuted : exists w, FILL (Vec (VBit 66 [0; 0])) (Int 2) 0 66 = Ret (Vec w) /\ elements w = repeat (Int 1) 64 ++ [Int 0; Int 0].
Proof. eexists. split; [reflexivity|]. vm_compute. reflexivity. Qed.
Print Assumptions C89_fill_refuted.

(** Full claim: (map kind f q1 q2 ...) calls f once for every index below the length of the shortest sequence, in order, with the elements at that index, and makes
    a sequence of the kind of the values; an error in f is an error of map.  Missing: arrays that end before their vector (refuted below). *)
Theorem C89_map_partial : forall S (f : S -> list value -> out (S * value)) fuel k s qs, qs <> [] -> Forall proper qs -> Forall to_end qs -> (shortest (map contents qs) < fuel)%nat ->
  match calls f s (columns (map contents qs)) with
  | Ret (s', ys) => match k with
                    | Some k => exists o, makes k ys o /\ MAP f fuel (Some k) s qs = (do q <- o; Ret (s', q))
                    | None => MAP f fuel None s qs = Ret (s', Lst [])
                    end
  | Error => MAP f fuel k s qs = Error
  | Hang => MAP f fuel k s qs = Hang
  | Undef => MAP f fuel k s qs = Undef
  end.
Proof. intros S f. exact (map_ok f). Qed.
Print Assumptions C89_map_partial.
(** a function that counts its calls and adds its arguments *)
Definition adder (n : Z) (xs : list value) : out (Z * value) :=
  do z <- fold_right (fun x o => do z <- o; match x with Int y => Ret (y + z) | Obj _ => Error end) (Ret 0) xs; Ret (n + 1, Int z).
Example C89_map_example : MAP adder 9 (Some KInt) 0 [Ex.tail; Lst [Int 1; Int 2; Int 3; Int 4]; Vec Ex.bits] = Ret (3, Vec (VInt [31; 43; 54])) /\
  columns (map contents [Ex.tail; Lst [Int 1; Int 2]]) = [[Int 30; Int 1]; [Int 40; Int 2]] /\ MAP adder 9 (Some KList) 0 [Lst [Int 1; Obj 3]; Vec Ex.word] = Error.
Proof. repeat split; reflexivity. Qed.
Theorem C89_map_refuted : contents Ex.window = [Int 20; Int 30; Int 40] /\ MAP adder 9 (Some KList) 0 [Ex.window] = Ret (4, Lst [Int 20; Int 30; Int 40; Int 50]).
Proof. split; reflexivity. Qed.
Print Assumptions C89_map_refuted.

(** Full claim: length is the number of elements and (elt q i) element number i, an error outside.  Missing: arrays with an offset and with a fill pointer (refuted below). *)
Theorem C89_length_partial : forall q, proper q -> (forall a, q = Arr a -> a_fp a = None) -> LENGTH q = Ret (Z.of_nat (length (contents q))).
Proof.
  intros [l|v|a] P H; cbn [LENGTH contents]; [reflexivity|rewrite elements_length by exact P; reflexivity|]. rewrite (H a eq_refl). destruct P as (W & d & Ed & H1 & H2 & H3). rewrite Ed. cbn [nth]. rewrite size_part by (auto; lia). f_equal. lia.
Qed.
Print Assumptions C89_length_partial.
Theorem C89_elt_partial : forall q i, proper q -> (forall a, q = Arr a -> a_off a = 0 /\ to_end q) -> - 2147483648 <= i < 2147483648 ->
  ELT q i = if (0 <=? i) && (i <? Z.of_nat (length (contents q))) then Ret (nth (Z.to_nat i) (contents q) NIL) else Error.
Proof.
  assert (forall v i, wf_vec v -> - 2147483648 <= i < 2147483648 -> vref v (to_int i) = if (0 <=? i) && (i <? Z.of_nat (vecsize v)) then Ret (nth (Z.to_nat i) (elements v) NIL) else Error) as HV.
  { intros v i W Hi. rewrite to_int_small by exact Hi. destruct (Z.leb_spec 0 i), (Z.ltb_spec i (Z.of_nat (vecsize v))); cbn [andb]; try (apply vref_out; lia). rewrite vref_ok by (auto; lia). f_equal. apply nth_indep. rewrite elements_length by exact W. lia. }
  intros [l|v|a] i P H Hi; cbn [ELT contents].
  - destruct l as [|x l]; [cbn [length]; destruct (Z.leb_spec 0 i), (Z.ltb_spec i (Z.of_nat 0)); try lia; reflexivity|]. destruct (Z.ltb_spec i 0), (Z.leb_spec 0 i); try lia; [reflexivity|]. cbn [andb].
    destruct (Z.ltb_spec i (Z.of_nat (length (x :: l)))).
    + destruct (nth_error (x :: l) (Z.to_nat i)) as [y|] eqn:E; [f_equal; symmetry; apply nth_error_nth; exact E|]. apply nth_error_None in E. lia.
    + destruct (nth_error (x :: l) (Z.to_nat i)) as [y|] eqn:E; [|reflexivity]. assert (nth_error (x :: l) (Z.to_nat i) <> None) as N by congruence. apply nth_error_Some in N. lia.
  - rewrite elements_length by exact P. apply HV; assumption.
  - destruct (H a eq_refl) as [H0 T]. destruct P as (W & d & Ed & H1 & H2 & H3). cbn [to_end] in T. rewrite Ed, H0 in *. cbn [nth Z.to_nat skipn] in *. rewrite firstn_all2 by (rewrite elements_length by exact W; lia).
    rewrite elements_length by exact W. apply HV; assumption.
Qed.
Print Assumptions C89_elt_partial.
Example C89_elt_example : ELT (Vec Ex.bits) 2 = Ret (Int 1) /\ ELT (Vec Ex.word) 3 = Error /\ ELT (Lst [Obj 5; Obj 6]) 1 = Ret (Obj 6) /\ LENGTH Ex.window = Ret 3.
Proof. repeat split; reflexivity. Qed.
(** element 0 of the window is element 0 of the vector behind it, and a vector with a fill pointer is converted with its unused part *)
Theorem C89_elt_refuted : ELT Ex.window 0 = Ret (Int 10) /\ contents Ex.window = [Int 20; Int 30; Int 40] /\
  (let q := Arr (mkArr [4] (Some 2) 0 (VInt [5; 6; 0; 0])) in LENGTH q = Ret 2 /\ COERCE q KList = Ret (Lst [Int 5; Int 6; Int 0; Int 0])).
Proof. repeat split; reflexivity. Qed.
Print Assumptions C89_elt_refuted.
