From Coq Require Import Permutation.
From Verif Require Import HashProofs.
From Verif Require Export PkgProofs.

Definition chain (t : table) := forall s j, j < length t -> at_ t (path (sname s) t j) = Sym s ->
  forall j', j' < j -> at_ t (path (sname s) t j') <> Zero.
Definition good (t : table) := chain t /\ NoDup (map sname (syms t)).

Lemma nodup_inj l (a b : symbol) : NoDup (map sname l) -> In a l -> In b l -> sname a = sname b -> a = b.
Proof.
  induction l as [|x l IH]; intros N Ha Hb E; [destruct Ha|]. cbn [map] in N. inversion N as [|? ? Nx N']; subst.
  destruct Ha as [<-|Ha], Hb as [<-|Hb]; auto.
  - destruct Nx. rewrite E. apply in_map, Hb.
  - destruct Nx. rewrite <- E. apply in_map, Ha.
Qed.

Definition lookup (t : table) (n : name) : option symbol :=
  match findsymbol t n with Ret (Hit _ s) => Some s | _ => None end.

Lemma lookup_in t n s : nz t < length t -> good t -> (lookup t n = Some s <-> In s (syms t) /\ sname s = n).
Proof.
  intros Z (C & N). unfold lookup. destruct (find_spec t n Z) as (r & -> & j & Hj & Sc & Fr). split.
  - destruct r as [i s'|]; [|discriminate]. intros [= <-]. destruct Fr as (-> & E & En). split; [|exact En].
    apply in_syms. exists (path n t j). split; [apply path_lt, Hj|exact E].
  - intros (Hs & En). destruct r as [i s'|i].
    + destruct Fr as (-> & E & En'). f_equal. apply (nodup_inj (syms t)); auto; [|congruence].
      apply in_syms. exists (path n t j). split; [apply path_lt, Hj|exact E].
    + exfalso. destruct Fr as (Ez & _). apply in_syms in Hs. destruct Hs as (i' & Hi' & Ei').
      destruct (path_surj t n i' Hi') as (js & Hjs & <-).
      destruct (Nat.lt_trichotomy js j) as [L|[->|L]].
      * destruct (Sc js L) as [_ Q]. exact (Q s Ei' En).
      * congruence.
      * rewrite <- En in *. exact (C s js Hjs Ei' j L Ez).
Qed.

Lemma lookup_none t n : nz t < length t -> good t -> (lookup t n = None <-> forall s, In s (syms t) -> sname s <> n).
Proof.
  intros Z G. split.
  - intros E s Hs En. assert (lookup t n = Some s) by (apply lookup_in; auto). congruence.
  - intros H. destruct (lookup t n) as [s|] eqn:E; [|reflexivity]. apply lookup_in in E; auto.
    destruct E as [E1 E2]. destruct (H s E1 E2).
Qed.

(** storing at the end of a path *)
Lemma put_good t s je : good t -> je < length t -> is_symbol (at_ t (path (sname s) t je)) = false ->
  (forall j', j' < je -> at_ t (path (sname s) t j') <> Zero) -> (forall x, In x (syms t) -> sname x <> sname s) ->
  good (put (path (sname s) t je) (Sym s) t) /\ Permutation (syms (put (path (sname s) t je) (Sym s) t)) (s :: syms t).
Proof.
  intros (C & N) Hj Hs Hp Hn. set (i := path (sname s) t je). assert (Hi : i < length t) by (apply path_lt, Hj).
  assert (P : Permutation (syms (put i (Sym s) t)) (s :: syms t)).
  { destruct (syms_put t i (Sym s) Hi) as (rest & P1 & P2). fold i in Hs.
    destruct (at_ t i); try discriminate; cbn [slot_syms app] in P1, P2; rewrite P2, P1; reflexivity. }
  split; [|exact P]. split.
  - intros x j Hj' E j' L. unfold path in *. rewrite put_length in *.
    unfold at_ in *. rewrite nth_put in E |- * by exact Hi.
    destruct (Nat.eqb_spec (pos (length t) (start (sname x) (length t)) j') i); [discriminate|].
    destruct (Nat.eqb_spec (pos (length t) (start (sname x) (length t)) j) i) as [e|ne].
    + injection E as ->. assert (j = je) by (apply (path_inj t (sname x)); [exact Hj'|exact Hj|exact e]). subst j.
      apply Hp, L.
    + apply (C x j Hj' E j' L).
  - rewrite P. cbn [map]. constructor; [|exact N]. intros Hin. apply in_map_iff in Hin. destruct Hin as (x & Ex & Hx).
    exact (Hn x Hx Ex).
Qed.

Lemma reinsert_good t : forall acc t', nz acc + length (syms t) < length acc -> good acc ->
  NoDup (map sname (syms t ++ syms acc)) -> fold_left reinsert t (Ret acc) = Ret t' ->
  good t' /\ Permutation (syms t') (syms t ++ syms acc).
Proof.
  induction t as [|s t IH]; intros acc t' Sp G N E.
  - cbn in E. injection E as <-. cbn [syms flat_map app]. auto.
  - cbn [fold_left] in E. destruct s as [| |s]; cbn [syms flat_map app] in *; fold (syms t) in *.
    + apply IH; auto.
    + apply IH; auto.
    + cbn [reinsert bind] in E. cbn [length] in Sp.
      destruct (skip_spec (fun s => negb (is_zero s)) acc (sname s) eq_refl ltac:(lia)) as (j & Es & Hj & Ez & Hp).
      rewrite Es in E. cbn [bind] in E. apply negb_false_iff in Ez.
      cbn [map] in N. inversion N as [|? ? Nn N']; subst.
      destruct (put_good acc s j G Hj) as [G' P'].
      * destruct (at_ acc (path (sname s) acc j)); try discriminate; reflexivity.
      * intros j' L. specialize (Hp j' L). destruct (at_ acc (path (sname s) acc j')); try discriminate; congruence.
      * intros x Hx Ex. apply Nn. rewrite <- Ex. apply in_map, in_or_app. right. exact Hx.
      * pose proof (nz_put acc (path (sname s) acc j) (Sym s) (path_lt _ _ _ Hj)) as Np.
        rewrite Ez in Np. cbn [is_zero] in Np.
        destruct (IH (put (path (sname s) acc j) (Sym s) acc) t') as [G2 P2].
        -- rewrite put_length. lia.
        -- exact G'.
        -- assert (Q : Permutation (map sname (syms t ++ syms (put (path (sname s) acc j) (Sym s) acc)))
                         (sname s :: map sname (syms t ++ syms acc))).
           { rewrite P', <- Permutation_middle. reflexivity. }
           rewrite Q. exact N.
        -- exact E.
        -- split; [exact G2|]. rewrite P2, P', <- Permutation_middle. reflexivity.
Qed.

Lemma store_good t c s je r : room t c -> good t -> je < length t -> is_symbol (at_ t (path (sname s) t je)) = false ->
  (forall j', j' < je -> at_ t (path (sname s) t j') <> Zero) -> (forall x, In x (syms t) -> sname x <> sname s) ->
  store t c (path (sname s) t je) s = Ret r -> good (fst r) /\ Permutation (syms (fst r)) (s :: syms t).
Proof.
  intros (A & B & C) G Hj Hs Hp Hn. destruct (put_good t s je G Hj Hs Hp Hn) as [G' P'].
  pose proof (nz_put t (path (sname s) t je) (Sym s) (path_lt _ _ _ Hj)) as Np. cbn [is_zero] in Np.
  unfold store. destruct (_ <? _).
  - unfold extendsymvec. set (t1 := put _ _ t) in *. pose proof (newsize_ge (length t1)) as Nl.
    pose proof (Nat.mul_div_le (length t) 2 ltac:(lia)). pose proof (syms_le_nz t1).
    assert (L1 : length t1 = length t) by apply put_length.
    destruct (fold_left reinsert t1 (@Ret table (repeat Zero (newsize (length t1))))) as [t'| |] eqn:E; try discriminate.
    cbn [bind]. intros [= <-]. cbn [fst].
    destruct (reinsert_good t1 (repeat Zero (newsize (length t1))) t') as [G2 P2].
    + rewrite nz_repeat, repeat_length. destruct (is_zero (at_ t (path (sname s) t je))); lia.
    + split.
      * intros x j Hj' E'. unfold at_ in E'. rewrite nth_repeat in E'. discriminate.
      * rewrite syms_repeat. constructor.
    + rewrite syms_repeat, app_nil_r. apply G'.
    + exact E.
    + rewrite syms_repeat, app_nil_r in P2. split; [exact G2|]. rewrite P2. exact P'.
  - intros [= <-]. auto.
Qed.

(** * sound states *)
Definition gp (k : pkg) := good (int k) /\ good (ext k) /\ incl (syms (ext k)) (syms (int k)).
Definition ids (st : state) :=
  (forall p a, valid st p -> In a (syms (int (pkg_at st p))) -> sid a < fresh st) /\
  (forall p q a b, valid st p -> valid st q -> In a (syms (int (pkg_at st p))) -> In b (syms (int (pkg_at st q))) ->
     sid a = sid b -> a = b).
Definition sound (st : state) := ok st /\ (forall p, valid st p -> gp (pkg_at st p)) /\ ids st.

Lemma pkg_at_set st p q k f : valid st p -> pkg_at (set_pkg (mkState (pkgs st) f) p k) q = if q =? p then k else pkg_at st q.
Proof. intros V. unfold pkg_at, set_pkg. cbn [pkgs]. apply nth_put, V. Qed.

Lemma pkg_at_set' st p q k : valid st p -> pkg_at (set_pkg st p k) q = if q =? p then k else pkg_at st q.
Proof. intros V. unfold pkg_at, set_pkg. cbn [pkgs]. apply nth_put, V. Qed.

Lemma export_spec st s p st' : sound st -> valid st p -> In s (syms (int (pkg_at st p))) -> ~ In s (syms (ext (pkg_at st p))) ->
  export st s p = Ret st' ->
  sound st' /\ fresh st' = fresh st /\ length (pkgs st') = length (pkgs st) /\
  (forall q, int (pkg_at st' q) = int (pkg_at st q) /\ use (pkg_at st' q) = use (pkg_at st q) /\
             used_by (pkg_at st' q) = used_by (pkg_at st q)) /\
  (forall q, q <> p -> ext (pkg_at st' q) = ext (pkg_at st q)) /\
  Permutation (syms (ext (pkg_at st' p))) (s :: syms (ext (pkg_at st p))).
Proof.
  intros (O & G & I1 & I2) V Hi He Ex. destruct (ok_at st p O V) as ((Ri & Re) & U & B). destruct (G p V) as (Gi & Ge & In_).
  unfold export in Ex. destruct (conflict_check st s (used_by (pkg_at st p))) as [[]| |]; try discriminate. cbn [bind] in Ex.
  pose proof (room_lt _ _ Re) as Rl. destruct (export_loop_spec (ext (pkg_at st p)) s ltac:(lia)) as (o & Eo & Ho).
  rewrite Eo in Ex. cbn [bind] in Ex. destruct o as [h|].
  2:{ exfalso. destruct Ho as (j & s' & Hj & E & Es). apply He. replace s with s'.
      - apply in_syms. exists (path (sname s) (ext (pkg_at st p)) j). split; [apply path_lt, Hj|exact E].
      - apply (I2 p p); auto. apply In_, in_syms. exists (path (sname s) (ext (pkg_at st p)) j).
        split; [apply path_lt, Hj|exact E]. }
  destruct Ho as (j & Hj & -> & Hs & Hp).
  destruct (store_room _ _ _ s Re (path_lt _ (sname s) _ Hj) Hs) as (r & Er & Rr). rewrite Er in Ex. cbn [bind] in Ex.
  injection Ex as <-.
  assert (Nn : forall x, In x (syms (ext (pkg_at st p))) -> sname x <> sname s).
  { intros x Hx En. apply He. replace s with x; [exact Hx|]. apply (nodup_inj (syms (int (pkg_at st p)))); auto. apply Gi. }
  destruct (store_good _ _ s j r Re Ge Hj Hs) as [Gr Pr]; auto.
  { intros j' L. destruct (Hp j' L) as (s' & -> & _). discriminate. }
  set (st' := set_pkg st p _).
  assert (At : forall q, pkg_at st' q = if q =? p then mkPkg (int (pkg_at st p)) (intcount (pkg_at st p)) (fst r) (snd r)
     (use (pkg_at st p)) (used_by (pkg_at st p)) else pkg_at st q) by (intros q; apply (pkg_at_set st p q _ (fresh st) V)).
  assert (Lp : length (pkgs st') = length (pkgs st)) by apply put_length.
  assert (Ai : forall q, int (pkg_at st' q) = int (pkg_at st q) /\ use (pkg_at st' q) = use (pkg_at st q) /\
             used_by (pkg_at st' q) = used_by (pkg_at st q)).
  { intros q. rewrite At. destruct (Nat.eqb_spec q p) as [->|]; auto. }
  split; [|split; [reflexivity|split; [exact Lp|split; [exact Ai|split]]]].
  - split; [|split].
    + apply set_ok'; [exact O|]. split; [split; assumption|]. split; assumption.
    + intros q Vq. rewrite At. destruct (Nat.eqb_spec q p) as [->|].
      * split; [exact Gi|]. split; [exact Gr|]. cbn [int ext]. intros x Hx. apply (Permutation_in _ Pr) in Hx.
        destruct Hx as [<-|Hx]; [exact Hi|apply In_, Hx].
      * apply G. unfold valid in *. rewrite <- Lp. exact Vq.
    + split.
      * intros q a Vq Ha. rewrite (proj1 (Ai q)) in Ha. apply (I1 q a); [unfold valid in *; lia|exact Ha].
      * intros q1 q2 a b V1 V2 Ha Hb. rewrite (proj1 (Ai q1)) in Ha. rewrite (proj1 (Ai q2)) in Hb.
        apply (I2 q1 q2); auto; unfold valid in *; lia.
  - intros q Nq. rewrite At. destruct (Nat.eqb_spec q p); [congruence|reflexivity].
  - rewrite At, Nat.eqb_refl. exact Pr.
Qed.

Lemma inherited_in st n us s : ok st -> (forall p, valid st p -> gp (pkg_at st p)) -> Forall (valid st) us ->
  find_inherited st n us = Ret (Some s) -> exists u, In u us /\ In s (syms (ext (pkg_at st u))) /\ sname s = n.
Proof.
  intros O G. induction 1 as [|u us V F IH]; cbn [find_inherited]; [discriminate|].
  destruct (ok_at st u O V) as ((_ & R) & _). pose proof (room_lt _ _ R).
  destruct (find_spec (ext (pkg_at st u)) n ltac:(lia)) as (r & -> & j & Hj & Sc & Fr). cbn [bind].
  destruct r as [i s'|i].
  - intros [= ->]. destruct Fr as (-> & E & En). exists u. split; [left; reflexivity|]. split; [|exact En].
    apply in_syms. exists (path n (ext (pkg_at st u)) j). split; [apply path_lt, Hj|exact E].
  - intros E. destruct (IH E) as (u' & Hu & Q). exists u'. split; [right; exact Hu|exact Q].
Qed.

(** what interning [n] in [p] would return without creating anything *)
Definition resolves (st : state) (p : nat) (n : name) (s : symbol) :=
  lookup (int (pkg_at st p)) n = Some s \/
  (lookup (int (pkg_at st p)) n = None /\ find_inherited st n (use (pkg_at st p)) = Ret (Some s)).

Lemma resolves_intern ea st p n s : sound st -> valid st p -> resolves st p n s -> intern ea st n p = Ret (st, s).
Proof.
  intros (O & G & _) V. destruct (ok_at st p O V) as ((Ri & Re) & U & B). pose proof (room_lt _ _ Ri).
  unfold resolves, lookup, intern. destruct (find_spec (int (pkg_at st p)) n ltac:(lia)) as (r & -> & _). cbn [bind].
  destruct r as [i s'|i]; intros [E|[E1 E2]]; try discriminate.
  - injection E as ->. reflexivity.
  - rewrite E2. reflexivity.
Qed.

Lemma resolves_name st p n s : sound st -> valid st p -> resolves st p n s ->
  sname s = n /\ exists q, valid st q /\ In s (syms (int (pkg_at st q))).
Proof.
  intros (O & G & _) V. destruct (ok_at st p O V) as ((Ri & Re) & U & B). destruct (G p V) as (Gi & _).
  pose proof (room_lt _ _ Ri). intros [E|[_ E]].
  - apply lookup_in in E; [|lia|exact Gi]. destruct E. split; [assumption|]. exists p. auto.
  - destruct (inherited_in st n _ s O G U E) as (u & Hu & Hs & En). split; [exact En|].
    rewrite Forall_forall in U. pose proof (U u Hu) as Vu. exists u. split; [exact Vu|]. apply (G u Vu), Hs.
Qed.

(** the effect of an intern *)
Lemma intern_spec ea st n p st' s : sound st -> valid st p -> intern ea st n p = Ret (st', s) ->
  (st' = st /\ resolves st p n s) \/
  (s = mkSym (fresh st) n /\ fresh st' = S (fresh st) /\ length (pkgs st') = length (pkgs st) /\
   lookup (int (pkg_at st p)) n = None /\ find_inherited st n (use (pkg_at st p)) = Ret None /\
   sound st' /\
   (forall q, q <> p -> pkg_at st' q = pkg_at st q) /\
   Permutation (syms (int (pkg_at st' p))) (s :: syms (int (pkg_at st p))) /\
   use (pkg_at st' p) = use (pkg_at st p) /\ used_by (pkg_at st' p) = used_by (pkg_at st p) /\
   ((p =? keywordpkg) || ea = false -> ext (pkg_at st' p) = ext (pkg_at st p)) /\
   ((p =? keywordpkg) || ea = true -> Permutation (syms (ext (pkg_at st' p))) (s :: syms (ext (pkg_at st p))))).
Proof.
  intros S V Ei. pose proof S as (O & G & I1 & I2). destruct (ok_at st p O V) as ((Ri & Re) & U & B).
  destruct (G p V) as (Gi & Ge & In_). unfold resolves, lookup. unfold intern in Ei. pose proof (room_lt _ _ Ri) as Rl.
  destruct (find_spec (int (pkg_at st p)) n ltac:(lia)) as (r & Ef & Fr). rewrite Ef in *. cbn [bind] in Ei.
  destruct r as [i s0|h]; [injection Ei as <- <-; left; auto|].
  destruct (inherited_total st n (use (pkg_at st p)) O U) as (o & Eo). rewrite Eo in *. cbn [bind] in Ei.
  destruct o as [s0|]; [injection Ei as <- <-; left; auto|]. right.
  destruct Fr as (j & Hj & Sc & Ez & je & Hje & -> & Hs).
  assert (Eh : skip is_symbol (length (int (pkg_at st p))) (int (pkg_at st p)) (path n (int (pkg_at st p)) je) =
               Ret (path n (int (pkg_at st p)) je)).
  { destruct (length (int (pkg_at st p))) eqn:E; [lia|]. cbn [skip]. fold (at_ (int (pkg_at st p)) (path n (int (pkg_at st p)) je)).
    rewrite Hs. reflexivity. }
  rewrite Eh in Ei. cbn [bind] in Ei. set (s1 := {| sid := fresh st; sname := n |}) in *.
  pose proof (Nat.le_lt_trans _ _ _ Hje Hj) as Hje'.
  destruct (store_room (int (pkg_at st p)) (intcount (pkg_at st p)) (path n (int (pkg_at st p)) je)
              s1 Ri (path_lt (int (pkg_at st p)) n je Hje') Hs) as (r & Er & Rr). rewrite Er in Ei. cbn [bind] in Ei.
  assert (Nn : forall x, In x (syms (int (pkg_at st p))) -> sname x <> n).
  { apply lookup_none; [lia|exact Gi|]. unfold lookup. rewrite Ef. reflexivity. }
  destruct (store_good _ _ s1 je r Ri Gi Hje' Hs) as [Gr Pr]; auto.
  { intros j' L. apply (Sc j'). lia. }
  set (st1 := set_pkg _ p _) in *.
  assert (At : forall q, pkg_at st1 q = if q =? p then mkPkg (fst r) (snd r) (ext (pkg_at st p)) (extcount (pkg_at st p))
     (use (pkg_at st p)) (used_by (pkg_at st p)) else pkg_at st q) by (intros q; apply pkg_at_set, V).
  assert (L1 : length (pkgs st1) = length (pkgs st)) by apply put_length.
  assert (Ii : forall q a, In a (syms (int (pkg_at st1 q))) -> (q = p /\ a = s1) \/ In a (syms (int (pkg_at st q)))).
  { intros q a Ha. rewrite At in Ha. destruct (Nat.eqb_spec q p) as [->|]; [|auto]. cbn [int] in Ha.
    apply (Permutation_in _ Pr) in Ha. destruct Ha as [<-|Ha]; auto. }
  assert (S1 : sound st1).
  { split; [|split].
    - apply set_ok; [exact O|]. split; [split; assumption|]. split; assumption.
    - intros q Vq. rewrite At. destruct (Nat.eqb_spec q p) as [->|]; [|apply G; unfold valid in *; lia].
      split; [exact Gr|]. split; [exact Ge|]. cbn [int ext]. intros x Hx.
      apply (Permutation_in _ (Permutation_sym Pr)). right. apply In_, Hx.
    - split.
      + intros q a Vq Ha. cbn [st1 set_pkg fresh]. apply Ii in Ha. destruct Ha as [[_ ->]|Ha]; [cbn; lia|].
        assert (sid a < fresh st) by (apply (I1 q); [unfold valid in *; lia|exact Ha]). lia.
      + intros q1 q2 a b V1 V2 Ha Hb E. unfold valid in *. apply Ii in Ha, Hb.
        destruct Ha as [[_ ->]|Ha], Hb as [[_ ->]|Hb]; auto.
        * exfalso. assert (sid b < fresh st) by (apply (I1 q2); [unfold valid in *; lia|exact Hb]). cbn in E. lia.
        * exfalso. assert (sid a < fresh st) by (apply (I1 q1); [unfold valid in *; lia|exact Ha]). cbn in E. lia.
        * apply (I2 q1 q2); auto; unfold valid; lia. }
  assert (Hin1 : In s1 (syms (int (pkg_at st1 p)))).
  { rewrite At, Nat.eqb_refl. cbn [int]. apply (Permutation_in _ (Permutation_sym Pr)). left. reflexivity. }
  destruct ((p =? keywordpkg) || ea) eqn:Ek.
  - destruct (export st1 s1 p) as [st2| |] eqn:Ee; try discriminate. cbn [bind] in Ei. injection Ei as <- <-.
    assert (V1 : valid st1 p) by (unfold valid in *; lia).
    destruct (export_spec st1 s1 p st2 S1 V1 Hin1) as (S2 & F2 & L2 & A2 & E2 & P2); auto.
    { rewrite At, Nat.eqb_refl. cbn [ext]. intros Hin. apply In_ in Hin. exact (Nn _ Hin eq_refl). }
    split; [reflexivity|]. split; [rewrite F2; reflexivity|]. split; [lia|]. split; [reflexivity|]. split; [reflexivity|].
    split; [exact S2|]. split.
    { intros q Nq. destruct (A2 q) as (A & A' & A'').
      assert (Q : forall k k' : pkg, k = k' -> int k = int k') by congruence.
      (* counters of an untouched package *)
      assert (pkg_at st2 q = pkg_at st1 q).
      { clear - Ee Nq V1. unfold export in Ee. destruct (conflict_check st1 s1 _); try discriminate. cbn [bind] in Ee.
        destruct (export_loop _ _ _ _) as [o| |]; try discriminate. cbn [bind] in Ee. destruct o as [h|].
        - destruct (store _ _ _ _) as [r'| |]; try discriminate. cbn [bind] in Ee. injection Ee as <-.
          rewrite (pkg_at_set' st1 p q _ V1). destruct (Nat.eqb_spec q p); [congruence|reflexivity].
        - congruence. }
      rewrite H, At. destruct (Nat.eqb_spec q p); [congruence|reflexivity]. }
    destruct (A2 p) as (A & A' & A''). rewrite A, A', A''. rewrite At, Nat.eqb_refl in *. cbn [int use used_by ext] in *.
    split; [exact Pr|]. split; [reflexivity|]. split; [reflexivity|]. split; [discriminate|]. intros _. exact P2.
  - cbn [bind] in Ei. injection Ei as <- <-.
    split; [reflexivity|]. split; [reflexivity|]. split; [exact L1|]. split; [reflexivity|]. split; [reflexivity|].
    split; [exact S1|]. split.
    { intros q Nq. rewrite At. destruct (Nat.eqb_spec q p); [congruence|reflexivity]. }
    rewrite At, Nat.eqb_refl. cbn [int use used_by ext].
    split; [exact Pr|]. split; [reflexivity|]. split; [reflexivity|]. split; [reflexivity|discriminate].
Qed.

(** * Unintern *)
Lemma put_one_good t i s : good t -> i < length t -> at_ t i = Sym s ->
  good (put i One t) /\ Permutation (syms t) (s :: syms (put i One t)).
Proof.
  intros (C & N) Hi E.
  assert (P : Permutation (syms t) (s :: syms (put i One t))).
  { destruct (syms_put t i One Hi) as (rest & P1 & P2). rewrite E in P1. cbn [slot_syms app] in P1, P2.
    rewrite P1, P2. reflexivity. }
  split; [|exact P]. split.
  - intros x j Hj Ex j' L. unfold path in *. rewrite put_length in *. unfold at_ in *. rewrite nth_put in Ex |- * by exact Hi.
    destruct (Nat.eqb_spec (pos (length t) (start (sname x) (length t)) j') i); [discriminate|].
    destruct (Nat.eqb_spec (pos (length t) (start (sname x) (length t)) j) i) as [e|ne]; [discriminate|].
    apply (C x j Hj Ex j' L).
  - rewrite P in N. cbn [map] in N. inversion N; assumption.
Qed.

Definition del (n : name) (l l' : list symbol) := forall x, In x l' <-> In x l /\ sname x <> n.

Lemma delete_name t c n : room t c -> good t -> exists o,
  lisp_find t n = Ret o /\ lisp_find_external t n = Ret o /\
  let t' := match o with Some i => put i One t | None => t end in
  room t' c /\ good t' /\ del n (syms t) (syms t') /\ length t' = length t.
Proof.
  intros R G. pose proof (room_lt _ _ R) as Rl. unfold lisp_find, lisp_find_external.
  destruct (find_spec t n ltac:(lia)) as (r & Ef & j & Hj & Sc & Fr). rewrite Ef. cbn [bind]. destruct r as [i s|i].
  - exists (Some i). split; [reflexivity|]. split; [reflexivity|]. cbv zeta. destruct Fr as (-> & E & En).
    pose proof (path_lt t n j Hj) as Hi. destruct (put_one_good t _ s G Hi E) as [G' P].
    split; [apply room_put; auto; rewrite E; reflexivity|]. split; [exact G'|]. split; [|apply put_length].
    intros x. split.
    + intros Hx. split; [apply (Permutation_in _ (Permutation_sym P)); right; exact Hx|].
      intros Ex. destruct G as [_ N]. rewrite P in N. cbn [map] in N. inversion N as [|? ? Nx _]; subst.
      apply Nx. apply in_map_iff. exists x. auto.
    + intros [Hx Nx]. apply (Permutation_in _ P) in Hx. destruct Hx as [<-|Hx]; [congruence|exact Hx].
  - exists None. split; [reflexivity|]. split; [reflexivity|]. cbv zeta. split; [exact R|]. split; [exact G|]. split; [|reflexivity].
    intros x. split; [|tauto]. intros Hx. split; [exact Hx|].
    assert (L : lookup t n = None) by (unfold lookup; rewrite Ef; reflexivity).
    exact (proj1 (lookup_none t n ltac:(lia) G) L x Hx).
Qed.

Lemma unintern_spec st s p : sound st -> valid st p -> exists st', unintern st s p = Ret st' /\ sound st' /\
  fresh st' = fresh st /\ length (pkgs st') = length (pkgs st) /\
  (forall q, q <> p -> pkg_at st' q = pkg_at st q) /\
  use (pkg_at st' p) = use (pkg_at st p) /\
  del (sname s) (syms (int (pkg_at st p))) (syms (int (pkg_at st' p))) /\
  del (sname s) (syms (ext (pkg_at st p))) (syms (ext (pkg_at st' p))).
Proof.
  intros (O & G & I1 & I2) V. destruct (ok_at st p O V) as ((Ri & Re) & U & B). destruct (G p V) as (Gi & Ge & In_).
  unfold unintern. destruct (delete_name _ _ (sname s) Ri Gi) as (a & -> & _ & Ra & Ga & Da & La). cbn [bind].
  destruct (delete_name _ _ (sname s) Re Ge) as (b & _ & -> & Rb & Gb & Db & Lb). cbn [bind].
  set (st' := set_pkg st p _).
  assert (At : forall q, pkg_at st' q = if q =? p then mkPkg (match a with Some i => put i One (int (pkg_at st p)) | None => int (pkg_at st p) end)
      (intcount (pkg_at st p)) (match b with Some i => put i One (ext (pkg_at st p)) | None => ext (pkg_at st p) end)
      (extcount (pkg_at st p)) (use (pkg_at st p)) (used_by (pkg_at st p)) else pkg_at st q)
    by (intros q; apply (pkg_at_set st p q _ (fresh st) V)).
  assert (Lp : length (pkgs st') = length (pkgs st)) by apply put_length.
  assert (Sub : forall q x, In x (syms (int (pkg_at st' q))) -> In x (syms (int (pkg_at st q)))).
  { intros q x. rewrite At. destruct (Nat.eqb_spec q p) as [->|]; [|auto]. cbn [int]. intros Hx. apply Da, Hx. }
  exists st'. split; [reflexivity|]. split; [|split; [reflexivity|split; [exact Lp|split]]].
  - split; [|split].
    + apply set_ok'; [exact O|]. split; [split; assumption|]. split; assumption.
    + intros q Vq. rewrite At. destruct (Nat.eqb_spec q p) as [->|]; [|apply G; unfold valid in *; lia].
      split; [exact Ga|]. split; [exact Gb|]. cbn [int ext]. intros x Hx. apply Db in Hx. destruct Hx as [Hx Nx].
      apply Da. split; [apply In_, Hx|exact Nx].
    + split.
      * intros q x Vq Hx. apply (I1 q); [unfold valid in *; lia|apply Sub, Hx].
      * intros q1 q2 x y V1 V2 Hx Hy. apply (I2 q1 q2); try (unfold valid in *; lia); apply Sub; assumption.
  - intros q Nq. rewrite At. destruct (Nat.eqb_spec q p); [congruence|reflexivity].
  - rewrite At, Nat.eqb_refl. cbn [int ext use]. auto.
Qed.

(** * Reachable states *)
Inductive reach (ea : bool) (g : list (list nat * list nat)) : state -> Prop :=
| reach_init : reach ea g (initial g)
| reach_intern st n p st' s : reach ea g st -> valid st p -> intern ea st n p = Ret (st', s) -> reach ea g st'
| reach_export st s p st' : reach ea g st -> valid st p ->
    find_symbol st (sname s) p = Ret (Some s) -> ~ In s (syms (ext (pkg_at st p))) ->
    export st s p = Ret st' -> reach ea g st'
| reach_unintern st s p st' : reach ea g st -> valid st p -> unintern st s p = Ret st' -> reach ea g st'.

Lemma initial_at g p : p < length g -> pkg_at (initial g) p = makepkg (fst (nth p g ([], []))) (snd (nth p g ([], []))).
Proof.
  intros H. unfold pkg_at, initial. cbn [pkgs].
  rewrite (nth_indep _ no_pkg ((fun g : list nat * list nat => makepkg (fst g) (snd g)) ([], []))) by (rewrite map_length; exact H).
  apply (map_nth (fun g => makepkg (fst g) (snd g))).
Qed.

Lemma initial_sound g : graph_ok g -> sound (initial g).
Proof.
  intros H. split; [apply initial_ok, H|].
  assert (E : forall p, valid (initial g) p -> syms (int (pkg_at (initial g) p)) = [] /\ good (int (pkg_at (initial g) p)) /\
     good (ext (pkg_at (initial g) p)) /\ syms (ext (pkg_at (initial g) p)) = []).
  { intros p V. unfold valid, initial in V. cbn [pkgs] in V. rewrite map_length in V. rewrite initial_at by exact V.
    unfold makepkg. cbn [int ext].
    assert (Gr : good (repeat Zero SYMBOLHASH)).
    { split; [|rewrite syms_repeat; constructor]. intros x j _ E'. unfold at_ in E'. rewrite nth_repeat in E'. discriminate. }
    rewrite syms_repeat. auto. }
  split.
  - intros p V. destruct (E p V) as (A & B & C & D). split; [exact B|]. split; [exact C|]. rewrite D. intros x [].
  - split.
    + intros p a V. rewrite (proj1 (E p V)). intros [].
    + intros p q a b V _. rewrite (proj1 (E p V)). intros [].
Qed.

Lemma find_symbol_lookup st n p : ok st -> valid st p -> find_symbol st n p = Ret (lookup (int (pkg_at st p)) n).
Proof.
  intros O V. destruct (ok_at st p O V) as ((Ri & Re) & _). pose proof (room_lt _ _ Ri).
  unfold find_symbol, lookup. destruct (find_spec (int (pkg_at st p)) n ltac:(lia)) as (r & -> & _). cbn [bind].
  destruct r; reflexivity.
Qed.

Definition graph_of (st : state) := map (fun k => (use k, used_by k)) (pkgs st).

Lemma reach_sound ea g st : graph_ok g -> reach ea g st -> sound st.
Proof.
  intros H. induction 1 as [|st n p st' s R IH V E|st s p st' R IH V F N E|st s p st' R IH V E].
  - apply initial_sound, H.
  - destruct (intern_spec ea st n p st' s IH V E) as [[-> _]|Q]; [exact IH|]. apply Q.
  - assert (Hi : In s (syms (int (pkg_at st p)))).
    { rewrite find_symbol_lookup in F by (apply IH || exact V). injection F as F.
      destruct IH as (O & G & _). destruct (ok_at st p O V) as ((Ri & _) & _). pose proof (room_lt _ _ Ri).
      apply lookup_in in F; [tauto|lia|apply (G p V)]. }
    apply (export_spec st s p st' IH V Hi N E).
  - destruct (unintern_spec st s p IH V) as (st2 & E2 & S2 & _). congruence.
Qed.

Lemma reach_graph ea g st : graph_ok g -> reach ea g st -> length (pkgs st) = length g /\
  forall p, p < length g -> use (pkg_at st p) = fst (nth p g ([], [])) /\ used_by (pkg_at st p) = snd (nth p g ([], [])).
Proof.
  intros H R. induction R as [|st n p st' s R IH V E|st s p st' R IH V F N E|st s p st' R IH V E].
  - split; [unfold initial; cbn [pkgs]; apply map_length|]. intros p Hp. rewrite initial_at by exact Hp. auto.
  - pose proof (reach_sound ea g st H R) as S. destruct IH as [L IH].
    destruct (intern_spec ea st n p st' s S V E) as [[-> _]|(_ & _ & L' & _ & _ & _ & Q & _ & U & B & _)]; [auto|].
    split; [lia|]. intros q Hq. destruct (Nat.eq_dec q p) as [->|Nq]; [rewrite U, B; apply IH, Hq|rewrite Q by exact Nq; apply IH, Hq].
  - pose proof (reach_sound ea g st H R) as S. destruct IH as [L IH].
    assert (Hi : In s (syms (int (pkg_at st p)))).
    { rewrite find_symbol_lookup in F by (apply S || exact V). injection F as F.
      destruct S as (O & G & _). destruct (ok_at st p O V) as ((Ri & _) & _). pose proof (room_lt _ _ Ri).
      apply lookup_in in F; [tauto|lia|apply (G p V)]. }
    destruct (export_spec st s p st' S V Hi N E) as (_ & _ & L' & A & _). split; [lia|]. intros q Hq.
    destruct (A q) as (_ & -> & ->). apply IH, Hq.
  - pose proof (reach_sound ea g st H R) as S. destruct IH as [L IH]. destruct S as (O & G & I).
    destruct (ok_at st p O V) as ((Ri & Re) & _). destruct (G p V) as (Gi & Ge & _).
    unfold unintern in E. destruct (delete_name _ _ (sname s) Ri Gi) as (a & Ea & _). rewrite Ea in E. cbn [bind] in E.
    destruct (delete_name _ _ (sname s) Re Ge) as (b & _ & Eb & _). rewrite Eb in E. cbn [bind] in E. injection E as <-.
    split; [unfold set_pkg; cbn [pkgs]; rewrite put_length; exact L|]. intros q Hq.
    rewrite (pkg_at_set' st p q _ V). destruct (Nat.eqb_spec q p) as [->|]; [cbn [use used_by]|]; apply IH, Hq.
Qed.

(** * C25 *)
Definition keyword_alone (g : list (list nat * list nat)) :=
  snd (nth keywordpkg g ([], [])) = [] /\ Forall (fun x => ~ In keywordpkg (fst x)) g.

Lemma inherited_frame st st' n us : (forall u, In u us -> ext (pkg_at st' u) = ext (pkg_at st u)) ->
  find_inherited st' n us = find_inherited st n us.
Proof.
  induction us as [|u us IH]; intros H; [reflexivity|]. cbn [find_inherited]. rewrite (H u (or_introl eq_refl)).
  destruct (findsymbol (ext (pkg_at st u)) n) as [[]| |]; cbn [bind]; try reflexivity.
  apply IH. intros u' Hu. apply H. right. exact Hu.
Qed.

Lemma resolves_stable g st n p n' p' st' s s' : graph_ok g -> keyword_alone g -> reach false g st ->
  p < length g -> p' < length g -> resolves st p n s -> intern false st n' p' = Ret (st', s') -> resolves st' p n s.
Proof.
  intros H (K1 & K2) R Hp Hp' Rs E. pose proof (reach_sound _ _ _ H R) as S. destruct (reach_graph _ _ _ H R) as [L Gr].
  assert (V : valid st p) by (unfold valid; lia). assert (V' : valid st p') by (unfold valid; lia).
  destruct (intern_spec false st n' p' st' s' S V' E) as [[-> _]|(Es & _ & L' & Ln & Fi & S' & Q & P & U & _ & Ex & _)]; [exact Rs|].
  assert (Ext : forall u, u <> keywordpkg -> ext (pkg_at st' u) = ext (pkg_at st u)).
  { intros u Nu. destruct (Nat.eq_dec u p') as [->|Nq]; [|rewrite Q by exact Nq; reflexivity].
    apply Ex. rewrite orb_false_r. apply Nat.eqb_neq. exact Nu. }
  assert (Use : use (pkg_at st' p) = use (pkg_at st p)).
  { destruct (Nat.eq_dec p p') as [->|Nq]; [exact U|rewrite Q by exact Nq; reflexivity]. }
  assert (Fr : find_inherited st' n (use (pkg_at st' p)) = find_inherited st n (use (pkg_at st p))).
  { rewrite Use. apply inherited_frame. intros u Hu. apply Ext. intros ->. rewrite Forall_forall in K2.
    apply (K2 (nth p g ([], []))); [apply nth_In, Hp|]. rewrite <- (proj1 (Gr p Hp)). exact Hu. }
  assert (Lk : lookup (int (pkg_at st' p)) n = lookup (int (pkg_at st p)) n).
  { destruct (Nat.eq_dec p p') as [->|Nq]; [|rewrite Q by exact Nq; reflexivity].
    assert (Nn : n' <> n).
    { intros ->. destruct Rs as [A|[A B]]; [congruence|]. congruence. }
    assert (V2 : valid st' p') by (unfold valid in *; lia).
    destruct S as (O & G & _), S' as (O' & G' & _). destruct (ok_at _ _ O V) as ((Ri & _) & _).
    destruct (ok_at _ _ O' V2) as ((Ri' & _) & _). pose proof (room_lt _ _ Ri). pose proof (room_lt _ _ Ri').
    destruct (lookup (int (pkg_at st p')) n) as [x|] eqn:Ex2.
    - apply lookup_in in Ex2; [|lia|apply (G p' V)]. destruct Ex2 as [A B]. apply lookup_in; [lia|apply (G' p' V2)|].
      split; [|exact B]. apply (Permutation_in _ (Permutation_sym P)). right. exact A.
    - apply lookup_none; [lia|apply (G' p' V2)|]. intros x Hx. apply (Permutation_in _ P) in Hx. destruct Hx as [<-|Hx].
      + rewrite Es. exact Nn.
      + exact (proj1 (lookup_none (int (pkg_at st p')) n ltac:(lia) (proj1 (G p' V))) Ex2 x Hx). }
  unfold resolves. rewrite Lk, Fr. exact Rs.
Qed.

Lemma resolves_new g st n p st' s : graph_ok g -> keyword_alone g -> reach false g st -> p < length g ->
  intern false st n p = Ret (st', s) -> resolves st' p n s.
Proof.
  intros H K R Hp E. pose proof (reach_sound _ _ _ H R) as S. destruct (reach_graph _ _ _ H R) as [L Gr].
  assert (V : valid st p) by (unfold valid; lia).
  destruct (intern_spec false st n p st' s S V E) as [[-> Rs]|(Es & _ & L' & Ln & Fi & S' & Q & P & U & _ & Ex & _)]; [exact Rs|].
  left. destruct S' as (O' & G' & _). assert (V2 : valid st' p) by (unfold valid in *; lia).
  destruct (ok_at _ _ O' V2) as ((Ri' & _) & _). pose proof (room_lt _ _ Ri').
  apply lookup_in; [lia|apply (G' p V2)|]. split; [|rewrite Es; reflexivity].
  apply (Permutation_in _ (Permutation_sym P)). left. reflexivity.
Qed.

Lemma intern_succeeds g st n p : graph_ok g -> keyword_alone g -> reach false g st -> p < length g ->
  exists st' s, intern false st n p = Ret (st', s).
Proof.
  intros H K R Hp. pose proof (reach_sound _ _ _ H R) as S. destruct (reach_graph _ _ _ H R) as [L Gr].
  assert (V : valid st p) by (unfold valid; lia). pose proof S as (O & G & _). destruct (ok_at st p O V) as ((Ri & Re) & U & B).
  unfold intern. pose proof (room_lt _ _ Ri). destruct (find_spec (int (pkg_at st p)) n ltac:(lia)) as (r & -> & Fr). cbn [bind].
  destruct r as [i s|h]; [eauto|].
  destruct (inherited_total st n (use (pkg_at st p)) O U) as (o & ->). cbn [bind]. destruct o as [s|]; [eauto|].
  destruct Fr as (j & Hj & _ & _ & je & Hje & -> & Hs).
  assert (Eh : skip is_symbol (length (int (pkg_at st p))) (int (pkg_at st p)) (path n (int (pkg_at st p)) je) =
               Ret (path n (int (pkg_at st p)) je)).
  { destruct (length (int (pkg_at st p))) eqn:E; [lia|]. cbn [skip]. fold (at_ (int (pkg_at st p)) (path n (int (pkg_at st p)) je)).
    rewrite Hs. reflexivity. }
  rewrite Eh. cbn [bind].
  destruct (store_room (int (pkg_at st p)) (intcount (pkg_at st p)) (path n (int (pkg_at st p)) je)
              {| sid := fresh st; sname := n |} Ri (path_lt (int (pkg_at st p)) n je (Nat.le_lt_trans _ _ _ Hje Hj)) Hs) as (r & -> & Rr).
  cbn [bind]. rewrite orb_false_r. destruct (Nat.eqb_spec p keywordpkg) as [Ek|]; [|cbn [bind]; eauto].
  set (st1 := set_pkg _ p _).
  assert (At : pkg_at st1 p = mkPkg (fst r) (snd r) (ext (pkg_at st p)) (extcount (pkg_at st p))
     (use (pkg_at st p)) (used_by (pkg_at st p))) by (unfold st1; rewrite (pkg_at_set st p p _ _ V), Nat.eqb_refl; reflexivity).
  unfold export. rewrite At. cbn [used_by ext extcount].
  rewrite (proj2 (Gr p Hp)), Ek, (proj1 K). cbn [conflict_check bind]. pose proof (room_lt _ _ Re). rewrite <- Ek.
  set (s1 := {| sid := fresh st; sname := n |}).
  destruct (export_loop_spec (ext (pkg_at st p)) s1 ltac:(lia)) as (o & Eo & Ho). rewrite Eo. cbn [bind].
  destruct o as [h|]; [|cbn [bind]; eauto]. destruct Ho as (j2 & Hj2 & -> & Hs2 & _).
  destruct (store_room (ext (pkg_at st p)) (extcount (pkg_at st p)) _ s1 Re (path_lt _ (sname s1) _ Hj2) Hs2) as (r2 & Er2 & _).
  rewrite Er2. cbn [bind]. eauto.
Qed.

Definition interns (n : nat) (o : op) : Prop := match o with Intern _ p => p < n | _ => False end.

Lemma run_interns g n p s os : graph_ok g -> keyword_alone g -> Forall (interns (length g)) os -> p < length g ->
  forall st, reach false g st -> resolves st p n s ->
  exists st' rs, run false st (os ++ [Intern n p]) = Ret (st', rs ++ [Some s]) /\ length rs = length os /\
    reach false g st' /\ resolves st' p n s.
Proof.
  intros H K F Hp. induction F as [|o os Fo F IH]; intros st R Rs.
  - cbn [app run step]. rewrite (resolves_intern false st p n s (reach_sound _ _ _ H R)).
    + cbn [bind fst snd]. exists st, []. auto.
    + unfold valid. rewrite (proj1 (reach_graph _ _ _ H R)). exact Hp.
    + exact Rs.
  - destruct o as [n' p'|? ?|? ?|? ?|? ?]; cbn [interns] in Fo; try contradiction. cbn [app run step].
    destruct (intern_succeeds g st n' p' H K R Fo) as (st' & s' & E). rewrite E. cbn [bind fst snd].
    assert (R' : reach false g st').
    { apply (reach_intern _ _ st n' p' st' s' R); [unfold valid; rewrite (proj1 (reach_graph _ _ _ H R)); exact Fo|exact E]. }
    destruct (IH st' R' (resolves_stable g st n p n' p' st' s s' H K R Hp Fo Rs E)) as (st2 & rs & E2 & L2 & R2 & Rs2).
    rewrite E2. cbn [bind fst snd]. exists st2, (Some s' :: rs). cbn [length app]. auto.
Qed.

Theorem intern_idempotent g st n p os : graph_ok g -> keyword_alone g -> reach false g st -> p < length g ->
  Forall (interns (length g)) os ->
  exists st' s rs, run false st (Intern n p :: os ++ [Intern n p]) = Ret (st', Some s :: rs ++ [Some s]) /\
    length rs = length os /\ sname s = n.
Proof.
  intros H K R Hp F. cbn [run step]. destruct (intern_succeeds g st n p H K R Hp) as (st1 & s & E). rewrite E. cbn [bind fst snd].
  assert (V : valid st p) by (unfold valid; rewrite (proj1 (reach_graph _ _ _ H R)); exact Hp).
  assert (R1 : reach false g st1) by (apply (reach_intern _ _ st n p st1 s R V E)).
  pose proof (resolves_new g st n p st1 s H K R Hp E) as Rs.
  destruct (run_interns g n p s os H K F Hp st1 R1 Rs) as (st2 & rs & E2 & L2 & _). rewrite E2. cbn [bind fst snd].
  exists st2, s, rs. split; [reflexivity|]. split; [exact L2|].
  apply (resolves_name st1 p n s (reach_sound _ _ _ H R1)); [|exact Rs].
  unfold valid. rewrite (proj1 (reach_graph _ _ _ H R1)). exact Hp.
Qed.

Theorem intern_distinct g st n p n' p' os : graph_ok g -> keyword_alone g -> reach false g st -> p < length g -> p' < length g ->
  Forall (interns (length g)) os -> n <> n' ->
  exists st' s s' rs, run false st (Intern n p :: os ++ [Intern n' p']) = Ret (st', Some s :: rs ++ [Some s']) /\
    sid s <> sid s'.
Proof.
  intros H K R Hp Hp' F Nn. cbn [run step]. destruct (intern_succeeds g st n p H K R Hp) as (st1 & s & E). rewrite E. cbn [bind fst snd].
  assert (V : valid st p) by (unfold valid; rewrite (proj1 (reach_graph _ _ _ H R)); exact Hp).
  assert (R1 : reach false g st1) by (apply (reach_intern _ _ st n p st1 s R V E)).
  pose proof (resolves_new g st n p st1 s H K R Hp E) as Rs.
  clear R V E. revert st1 R1 Rs. induction F as [|o os Fo F IH]; intros st1 R1 Rs.
  - cbn [app run step]. destruct (intern_succeeds g st1 n' p' H K R1 Hp') as (st2 & s' & E). rewrite E. cbn [bind fst snd].
    exists st2, s, s', []. split; [reflexivity|]. intros Es.
    assert (V1 : valid st1 p') by (unfold valid; rewrite (proj1 (reach_graph _ _ _ H R1)); exact Hp').
    assert (R2 : reach false g st2) by (apply (reach_intern _ _ st1 n' p' st2 s' R1 V1 E)).
    pose proof (resolves_stable g st1 n p n' p' st2 s s' H K R1 Hp Hp' Rs E) as Rs1.
    pose proof (resolves_new g st1 n' p' st2 s' H K R1 Hp' E) as Rs2.
    pose proof (reach_sound _ _ _ H R2) as S2. pose proof (proj1 (reach_graph _ _ _ H R2)) as L2.
    destruct (resolves_name st2 p n s S2 ltac:(unfold valid; lia) Rs1) as [N1 (q1 & V3 & I1)].
    destruct (resolves_name st2 p' n' s' S2 ltac:(unfold valid; lia) Rs2) as [N2 (q2 & V4 & I2)].
    destruct S2 as (_ & _ & _ & D). rewrite (D q1 q2 s s' V3 V4 I1 I2 Es) in N1. congruence.
  - destruct o as [n2 p2|? ?|? ?|? ?|? ?]; cbn [interns] in Fo; try contradiction. cbn [app run step].
    destruct (intern_succeeds g st1 n2 p2 H K R1 Fo) as (st2 & s2 & E). rewrite E. cbn [bind fst snd].
    assert (V1 : valid st1 p2) by (unfold valid; rewrite (proj1 (reach_graph _ _ _ H R1)); exact Fo).
    assert (R2 : reach false g st2) by (apply (reach_intern _ _ st1 n2 p2 st2 s2 R1 V1 E)).
    destruct (IH st2 R2 (resolves_stable g st1 n p n2 p2 st2 s s2 H K R1 Hp Fo Rs E)) as (st3 & a & b & rs & E3 & Ne).
    destruct (run false st2 (os ++ [Intern n' p'])) as [[st4 rs4]| |] eqn:E4; cbn [bind fst snd] in *; try discriminate.
    injection E3 as -> -> ->. exists st3, a, b, (Some s2 :: rs). auto.
Qed.

(** * C27 *)
Theorem unintern_exact ea g st s p : graph_ok g -> reach ea g st -> p < length g ->
  exists st', unintern st s p = Ret st' /\ reach ea g st' /\
    find_symbol st' (sname s) p = Ret None /\
    lookup (ext (pkg_at st' p)) (sname s) = None /\
    (forall q n, q < length g -> q <> p \/ n <> sname s ->
       find_symbol st' n q = find_symbol st n q /\
       lookup (ext (pkg_at st' q)) n = lookup (ext (pkg_at st q)) n).
Proof.
  intros H R Hp. pose proof (reach_sound _ _ _ H R) as S. destruct (reach_graph _ _ _ H R) as [L _].
  assert (V : valid st p) by (unfold valid; lia).
  destruct (unintern_spec st s p S V) as (st' & E & S' & _ & L' & Q & _ & Di & De).
  exists st'. split; [exact E|]. split; [apply (reach_unintern _ _ st s p st' R V E)|].
  pose proof S as (O & G & _). pose proof S' as (O' & G' & _). assert (V' : valid st' p) by (unfold valid; lia).
  destruct (ok_at _ _ O V) as ((Ri & Re) & _). destruct (ok_at _ _ O' V') as ((Ri' & Re') & _).
  destruct (G p V) as (Gi & Ge & _). destruct (G' p V') as (Gi' & Ge' & _).
  pose proof (room_lt _ _ Ri). pose proof (room_lt _ _ Re). pose proof (room_lt _ _ Ri'). pose proof (room_lt _ _ Re').
  assert (Same : forall t t' n, nz t < length t -> nz t' < length t' -> good t -> good t' -> del (sname s) (syms t) (syms t') ->
     n <> sname s -> lookup t' n = lookup t n).
  { intros t t' n Z Z' Gt Gt' D Nn. destruct (lookup t n) as [x|] eqn:Ex.
    - apply lookup_in in Ex; [|exact Z|exact Gt]. destruct Ex as [A B]. apply lookup_in; [exact Z'|exact Gt'|].
      split; [|exact B]. apply D. split; [exact A|congruence].
    - apply lookup_none; [exact Z'|exact Gt'|]. intros x Hx. apply D in Hx.
      exact (proj1 (lookup_none t n Z Gt) Ex x (proj1 Hx)). }
  split; [|split].
  - rewrite find_symbol_lookup by assumption. f_equal. apply lookup_none; [lia|exact Gi'|]. intros x Hx. apply Di in Hx. tauto.
  - apply lookup_none; [lia|exact Ge'|]. intros x Hx. apply De in Hx. tauto.
  - intros q n Hq Ne. assert (Vq : valid st q) by (unfold valid; lia). assert (Vq' : valid st' q) by (unfold valid; lia).
    rewrite !find_symbol_lookup by assumption. destruct (Nat.eq_dec q p) as [->|Nq].
    + assert (Nn : n <> sname s) by tauto. split; [f_equal|]; apply Same; auto; lia.
    + rewrite Q by exact Nq. auto.
Qed.
