(** Proofs about permutations and combinations. *)
From Coq Require Import Permutation Factorial.
From Verif Require Import MapModel PermModel.

Section Proofs.
Context {A : Type}.

(** * Insertion at every place *)

(** The places from the end of [b] on *)
Fixpoint places (a : A) (b c : list A) : list (list A) :=
  match c with
  | [] => [b ++ [a]]
  | x :: c' => (b ++ a :: c) :: places a (b ++ [x]) c'
  end.

Lemma places_in a : forall c b p, In p (places a b c) <-> exists c1 c2, c = c1 ++ c2 /\ p = b ++ c1 ++ a :: c2.
Proof.
  induction c as [|x c IH]; intros b p; cbn [places In].
  - split.
    + intros [<-|[]]. exists [], []. split; reflexivity.
    + intros (c1 & c2 & E & ->). symmetry in E. apply app_eq_nil in E. destruct E as [-> ->]. left. reflexivity.
  - rewrite IH. split.
    + intros [<-|(c1 & c2 & -> & ->)].
      * exists [], (x :: c). split; reflexivity.
      * exists (x :: c1), c2. split; [reflexivity|]. rewrite <- app_assoc. reflexivity.
    + intros (c1 & c2 & E & ->). destruct c1 as [|y c1]; cbn [app] in E.
      * left. subst c2. reflexivity.
      * inversion E; subst. right. exists c1, c2. split; [reflexivity|]. rewrite <- app_assoc. reflexivity.
Qed.

Lemma places_length a : forall c b, length (places a b c) = S (length c).
Proof. induction c as [|x c IH]; intros b; [reflexivity|]. cbn [places length]. rewrite IH. reflexivity. Qed.

Lemma perm2_places (a : A) : forall cc bb dd, perm2 a bb cc dd = rev (places a bb cc) ++ dd.
Proof.
  induction cc as [|c cc IH]; intros bb dd; [reflexivity|]. cbn [perm2 places rev]. rewrite IH, <- app_assoc. reflexivity.
Qed.

Lemma app_eq_unique (a : A) c1 c2 d1 d2 : ~ In a (c1 ++ c2) -> ~ In a (d1 ++ d2) ->
  c1 ++ a :: c2 = d1 ++ a :: d2 -> c1 = d1 /\ c2 = d2.
Proof.
  revert d1. induction c1 as [|x c1 IH]; intros d1 N M E; destruct d1 as [|y d1]; cbn [app] in *.
  - inversion E. split; reflexivity.
  - inversion E; subst. exfalso. apply M. left. reflexivity.
  - inversion E; subst. exfalso. apply N. left. reflexivity.
  - inversion E; subst. destruct (IH d1) as [-> ->]; [intros X; apply N; right; exact X|intros X; apply M; right; exact X|assumption|].
    split; reflexivity.
Qed.

Lemma places_nodup a : forall c b, ~ In a (b ++ c) -> NoDup (places a b c).
Proof.
  induction c as [|x c IH]; intros b N; cbn [places]; [constructor; [intros []|constructor]|]. constructor.
  - rewrite places_in. intros (c1 & c2 & E & F). rewrite <- app_assoc in F. cbn [app] in F.
    apply app_inv_head in F. inversion F; subst. apply N. apply in_or_app. right. left. reflexivity.
  - apply IH. rewrite <- app_assoc. exact N.
Qed.

(** * list-permutation *)

Lemma list_permutation_cons a b r :
  list_permutation (a :: b :: r) = concat (map (fun y => perm2 a [] y []) (list_permutation (b :: r))) :> list (list A).
Proof. reflexivity. Qed.

Lemma perm_insert (a : A) y p : In p (perm2 a [] y []) <-> exists c1 c2, y = c1 ++ c2 /\ p = c1 ++ a :: c2.
Proof. rewrite perm2_places, app_nil_r, <- in_rev, places_in. reflexivity. Qed.

Theorem permutations_all : forall (x p : list A), x <> [] -> (In p (list_permutation x) <-> Permutation x p).
Proof.
  induction x as [|a [|b r] IH]; intros p N; [contradiction| |].
  - cbn [list_permutation In]. split; [intros [<-|[]]; apply Permutation_refl|].
    intros P. left. symmetry. apply Permutation_length_1_inv. exact P.
  - rewrite list_permutation_cons, in_concat. clear N. assert (N : b :: r <> []) by discriminate. split.
    + intros (l & H & I). apply in_map_iff in H. destruct H as (y & <- & Iy). apply perm_insert in I.
      destruct I as (c1 & c2 & -> & ->). apply (IH (c1 ++ c2) N) in Iy.
      apply Permutation_cons_app. exact Iy.
    + intros P. assert (Ia : In a p) by (apply (Permutation_in a P); left; reflexivity).
      apply in_split in Ia. destruct Ia as (c1 & c2 & ->). apply Permutation_cons_app_inv in P.
      exists (perm2 a [] (c1 ++ c2) []). split.
      * apply in_map_iff. exists (c1 ++ c2). split; [reflexivity|]. apply (IH (c1 ++ c2) N). exact P.
      * apply perm_insert. exists c1, c2. split; reflexivity.
Qed.

Lemma concat_length (n : nat) (f : list A -> list (list A)) L : Forall (fun y => length (f y) = n) L ->
  length (concat (map f L)) = length L * n.
Proof.
  intros F. induction F as [|y L H F IH]; [reflexivity|]. cbn [map concat length]. rewrite app_length, H, IH. lia.
Qed.

Theorem permutations_number : forall x : list A, x <> [] -> length (list_permutation x) = fact (length x).
Proof.
  induction x as [|a [|b r] IH]; intros N; [contradiction|reflexivity|]. rewrite list_permutation_cons.
  rewrite (concat_length (S (S (length r)))).
  - rewrite IH by discriminate. cbn [length]. change (fact (S (S (length r)))) with (S (S (length r)) * fact (S (length r))). lia.
  - apply Forall_forall. intros y Iy. apply permutations_all in Iy; [|discriminate].
    rewrite perm2_places, app_nil_r, rev_length, places_length. apply Permutation_length in Iy. cbn [length] in Iy. lia.
Qed.

Lemma nodup_concat (f : list A -> list (list A)) L : NoDup L -> Forall (fun y => NoDup (f y)) L ->
  (forall y z p, In y L -> In z L -> In p (f y) -> In p (f z) -> y = z) -> NoDup (concat (map f L)).
Proof.
  intros N F D. induction N as [|y L Ny N IH]; [constructor|]. cbn [map concat]. inversion F; subst.
  assert (G : NoDup (concat (map f L))).
  { apply IH; [assumption|]. intros u v p Iu Iv. apply D; right; assumption. }
  assert (E : forall p, In p (f y) -> ~ In p (concat (map f L))).
  { intros p Ip Iq. apply in_concat in Iq. destruct Iq as (l & Il & Iq). apply in_map_iff in Il. destruct Il as (z & <- & Iz).
    assert (y = z) by (apply (D y z p); [left; reflexivity|right; exact Iz|exact Ip|exact Iq]). subst. contradiction. }
  clear - H1 G E. induction (f y) as [|p l IHl]; [exact G|]. cbn [app]. inversion H1; subst. constructor.
  - intros I. apply in_app_or in I. destruct I as [I|I]; [contradiction|]. apply (E p); [left; reflexivity|exact I].
  - apply IHl; [assumption|]. intros q Iq. apply E. right. exact Iq.
Qed.

Theorem permutations_once : forall x : list A, NoDup x -> NoDup (list_permutation x).
Proof.
  induction x as [|a [|b r] IH]; intros N; [constructor|constructor; [intros []|constructor]|].
  rewrite list_permutation_cons. inversion N as [|? ? Na Nr]; subst.
  assert (NI : forall y, In y (list_permutation (b :: r)) -> ~ In a y).
  { intros y Iy Ia. apply permutations_all in Iy; [|discriminate]. apply Na. apply (Permutation_in a (Permutation_sym Iy)). exact Ia. }
  apply nodup_concat.
  - apply IH. exact Nr.
  - apply Forall_forall. intros y Iy. rewrite perm2_places, app_nil_r. apply NoDup_rev. apply places_nodup. cbn [app]. apply NI. exact Iy.
  - intros y z p Iy Iz Ip Iq. apply perm_insert in Ip, Iq. destruct Ip as (c1 & c2 & -> & ->). destruct Iq as (d1 & d2 & -> & E).
    destruct (app_eq_unique a c1 c2 d1 d2 (NI _ Iy) (NI _ Iz) E) as [-> ->]. reflexivity.
Qed.

(** * The generator *)

(** What [:next] returns until the first NIL *)
Inductive emits : generator -> list (list A) -> Prop :=
| emits_end g g' : next g = (g', []) -> emits g []
| emits_more g g' x xs : next g = (g', x) -> x <> [] -> emits g' xs -> emits g (x :: xs).

Lemma all_emits g xs : emits g xs -> forall fuel r, length xs < fuel -> all fuel g r = Some (rev xs ++ r).
Proof.
  intros E. induction E as [g g' E|g g' x xs E N _ IH]; intros fuel r L; (destruct fuel as [|fuel]; [cbn [length] in L; lia|]);
    cbn [all]; rewrite E; cbn [fst snd].
  - reflexivity.
  - destruct x as [|y x]; [contradiction|]. cbn [length] in L. rewrite IH by lia. cbn [rev]. rewrite <- app_assoc. reflexivity.
Qed.

Lemma emits_places a sub rest : emits (Sub a sub [] []) rest ->
  forall c b, b ++ c <> [] -> emits (Sub a sub b c) (places a b c ++ rest).
Proof.
  intros R. induction c as [|x c IH]; intros b N.
  - rewrite app_nil_r in N. destruct b as [|y b]; [contradiction|]. cbn [places app].
    eapply emits_more; [reflexivity| |exact R]. cbn [app]. discriminate.
  - cbn [places app]. eapply emits_more; [reflexivity| |].
    + destruct b; discriminate.
    + apply IH. destruct b; discriminate.
Qed.

Lemma emits_sub a sub ys : emits sub ys -> emits (Sub a sub [] []) (concat (map (places a []) ys)).
Proof.
  intros E. induction E as [g g' E|g g' y ys E N _ IH].
  - cbn [map concat]. apply (emits_end _ (Sub a g' [] [])). cbn [next]. rewrite E. reflexivity.
  - cbn [map concat]. destruct y as [|x y]; [contradiction|]. cbn [places app].
    eapply emits_more; [cbn [next]; rewrite E; cbn [fst snd app]; reflexivity|discriminate|].
    apply emits_places; [exact IH|discriminate].
Qed.

Fixpoint listing (l : list A) : list (list A) :=
  match l with
  | [] => []
  | [a] => [[a]]
  | a :: r => concat (map (places a []) (listing r))
  end.

Lemma init_emits : forall l, emits (init l) (listing l).
Proof.
  induction l as [|a [|b r] IH].
  - apply (emits_end _ (Single [] [] [])). reflexivity.
  - cbn [init listing]. eapply emits_more; [reflexivity|discriminate|]. apply (emits_end _ (Single [a] [a] [])). reflexivity.
  - change (init (a :: b :: r)) with (Sub a (init (b :: r)) [] []).
    change (listing (a :: b :: r)) with (concat (map (places a []) (listing (b :: r)))). apply emits_sub. exact IH.
Qed.

Lemma listing_perm : forall l : list A, Permutation (listing l) (list_permutation l).
Proof.
  induction l as [|a [|b r] IH]; [apply Permutation_refl|apply Permutation_refl|].
  rewrite list_permutation_cons. change (listing (a :: b :: r)) with (concat (map (places a []) (listing (b :: r)))).
  rewrite <- !flat_map_concat_map.
  apply Permutation_trans with (flat_map (places a []) (list_permutation (b :: r))); [apply Permutation_flat_map; exact IH|].
  generalize (list_permutation (b :: r)) as M. clear. induction M as [|y M IH]; [apply Permutation_refl|]. cbn [flat_map].
  apply Permutation_app; [|exact IH]. rewrite perm2_places, app_nil_r. apply Permutation_rev.
Qed.

Theorem generator_ok (l : list A) : l <> [] -> exists xs, emits (init l) xs /\ length xs = fact (length l) /\
  (forall p, In p xs <-> Permutation l p) /\ (NoDup l -> NoDup xs).
Proof.
  intros N. exists (listing l). split; [apply init_emits|]. pose proof (listing_perm l) as P.
  split; [rewrite (Permutation_length P); apply permutations_number; exact N|]. split.
  - intros p. rewrite <- permutations_all by exact N. split; apply Permutation_in; [exact P|apply Permutation_sym; exact P].
  - intros D. apply (Permutation_NoDup (Permutation_sym P)). apply permutations_once. exact D.
Qed.

Theorem generator_all (l : list A) fuel : l <> [] -> fact (length l) < fuel -> exists xs, all fuel (init l) [] = Some xs /\
  length xs = fact (length l) /\ (forall p, In p xs <-> Permutation l p).
Proof.
  intros N F. destruct (generator_ok l N) as (xs & E & L & I & _). exists (rev xs). split; [|split].
  - rewrite (all_emits _ _ E) by lia. rewrite app_nil_r. reflexivity.
  - rewrite rev_length. exact L.
  - intros p. rewrite <- in_rev. apply I.
Qed.

(** * Combinations *)

(** [z] is [l] with some elements left out. *)
Inductive sublist : list A -> list A -> Prop :=
| sub_nil : sublist [] []
| sub_skip z y l : sublist z l -> sublist z (y :: l)
| sub_take z y l : sublist z l -> sublist (y :: z) (y :: l).

Fixpoint binomial (n k : nat) : nat :=
  match k, n with
  | O, _ => 1
  | S _, O => 0
  | S k', S n' => binomial n' k' + binomial n' k
  end.

Fixpoint comb (l : list A) (r : nat) : list (list A) :=
  match r with
  | 1 => map (fun a => [a]) l
  | _ => match l with [] => [] | y :: t => rev (map (cons y) (comb t (r - 1))) ++ comb t r end
  end.

Lemma comb_cons y t r : r <> 1 -> comb (y :: t) r = rev (map (cons y) (comb t (r - 1))) ++ comb t r.
Proof. intros N. destruct r as [|[|r]]; [reflexivity|contradiction|reflexivity]. Qed.

Lemma combi_loop (f : list (list A) -> MapModel.comp unit (list (list A))) r n :
  (forall y t, length t < n -> f [y :: t] = ret (map (cons y) (comb t (r - 1)))) -> r <> 1 ->
  forall l acc, length l <= n -> mapcon_loop f l [] acc tt = (tt, Some (rev acc ++ comb l r)).
Proof.
  intros H N. induction l as [|y t IH]; intros acc L.
  - cbn [mapcon_loop]. unfold ret. replace (comb [] r) with (@nil (list A)) by (destruct r as [|[|r]]; reflexivity).
    rewrite app_nil_r. reflexivity.
  - cbn [length] in L. cbn [mapcon_loop]. unfold bind. rewrite H by lia. unfold ret. cbn [map tl]. rewrite IH by lia.
    rewrite comb_cons by exact N. rewrite rev_app_distr, <- app_assoc. reflexivity.
Qed.

Lemma combi_comb : forall fuel l r, length l <= fuel -> combi fuel l r = Some (comb l r).
Proof.
  induction fuel as [|f IH]; intros l r L; (destruct (Nat.eq_dec r 1) as [R1|R1]; [subst r; destruct l; reflexivity|]).
  - destruct l; [|cbn [length] in L; lia]. destruct r as [|[|r]]; [reflexivity|contradiction|reflexivity].
  - assert (E : run (mapcon (fun ys => match ys with
                             | (y :: t) :: _ => match combi f t (r - 1) with Some zs => ret (map (cons y) zs) | None => fail end
                             | _ => fail end) l []) = Some (comb l r)).
    { unfold run, mapcon. rewrite (combi_loop _ r (S f)); [reflexivity| |exact R1|exact L].
      intros y t Lt. rewrite IH by lia. reflexivity. }
    destruct r as [|[|r]]; [exact E|contradiction|exact E].
Qed.

Lemma combi2_comb l : combi2 l = Some (comb l 2).
Proof.
  unfold combi2, run, mapcon. rewrite (combi_loop _ 2 (length l)); [reflexivity| |discriminate|lia].
  intros y t _. f_equal. change (2 - 1) with 1.
  replace (comb t 1) with (map (fun a => [a]) t) by (destruct t; reflexivity). rewrite map_map. reflexivity.
Qed.

Lemma sublist_nil_l : forall l : list A, sublist [] l.
Proof. induction l as [|a l IH]; [constructor|apply sub_skip; exact IH]. Qed.

Lemma comb_in : forall l r z, r <> 0 -> (In z (comb l r) <-> sublist z l /\ length z = r).
Proof.
  induction l as [|y t IH]; intros r z R; (destruct (Nat.eq_dec r 1) as [R1|R1]; [subst r|]).
  - cbn [comb map In]. split; [intros []|]. intros [H L]. inversion H; subst. discriminate L.
  - replace (comb [] r) with (@nil (list A)) by (destruct r as [|[|r]]; reflexivity). split; [intros []|].
    intros [H L]. inversion H; subst. contradiction R. reflexivity.
  - specialize (IH 1 z R). replace (comb t 1) with (map (fun a => [a]) t) in IH by (destruct t; reflexivity).
    cbn [comb map In]. rewrite IH. split.
    + intros [<-|[H L]]; [split; [apply sub_take; apply sublist_nil_l|reflexivity]|split; [apply sub_skip; exact H|exact L]].
    + intros [H L]. inversion H as [|? ? ? H1|z' ? ? H1]; subst; [right; split; [exact H1|first [exact L|reflexivity]]|].
      left. destruct z'; [reflexivity|discriminate L].
  - rewrite comb_cons by exact R1. rewrite in_app_iff, <- in_rev, in_map_iff, IH by exact R. split.
    + intros [(z' & <- & I)|[H L]].
      * apply IH in I; [|lia]. destruct I as [H L]. split; [apply sub_take; exact H|cbn [length]; lia].
      * split; [apply sub_skip; exact H|exact L].
    + intros [H L]. inversion H as [|? ? ? H1|z' ? ? H1]; subst; [right; split; [exact H1|first [exact L|reflexivity]]|].
      left. exists z'. split; [reflexivity|]. cbn [length] in *. apply IH; [lia|]. split; [exact H1|lia].
Qed.

Lemma binomial_1 : forall n, binomial n 1 = n.
Proof. induction n as [|n IH]; [reflexivity|]. cbn [binomial] in *. rewrite IH. destruct n; reflexivity. Qed.

Lemma comb_length : forall l r, r <> 0 -> length (comb l r) = binomial (length l) r.
Proof.
  induction l as [|y t IH]; intros r R; (destruct (Nat.eq_dec r 1) as [R1|R1]; [subst r|]).
  - reflexivity.
  - destruct r as [|[|r]]; [contradiction|contradiction|reflexivity].
  - rewrite binomial_1. cbn [comb]. rewrite map_length. reflexivity.
  - rewrite comb_cons by exact R1. rewrite app_length, rev_length, map_length, !IH by lia.
    destruct r as [|r]; [contradiction|]. replace (S r - 1) with r by lia. reflexivity.
Qed.

Lemma sublist_in (z l : list A) : sublist z l -> forall x, In x z -> In x l.
Proof.
  intros H. induction H as [|z y l H IH|z y l H IH]; intros x I; [exact I|right; apply IH; exact I|].
  destruct I as [I|I]; [left; exact I|right; apply IH; exact I].
Qed.

Lemma comb_nodup : forall l r, r <> 0 -> NoDup l -> NoDup (comb l r).
Proof.
  induction l as [|y t IH]; intros r R N; (destruct (Nat.eq_dec r 1) as [R1|R1]; [subst r|]).
  - constructor.
  - destruct r as [|[|r]]; [contradiction|contradiction|constructor].
  - cbn [comb]. apply FinFun.Injective_map_NoDup; [|exact N]. intros u v E. inversion E. reflexivity.
  - rewrite comb_cons by exact R1. inversion N as [|? ? Ny Nt]; subst.
    assert (P : NoDup (rev (map (cons y) (comb t (r - 1))))).
    { apply NoDup_rev. apply FinFun.Injective_map_NoDup; [intros u v E; inversion E; reflexivity|]. apply IH; [lia|exact Nt]. }
    assert (D : forall z, In z (rev (map (cons y) (comb t (r - 1)))) -> ~ In z (comb t r)).
    { intros z I J. apply in_rev, in_map_iff in I. destruct I as (z' & <- & _). apply comb_in in J; [|exact R].
      apply Ny. apply (sublist_in _ _ (proj1 J)). left. reflexivity. }
    specialize (IH r R Nt). clear - P D IH. induction (rev (map (cons y) (comb t (r - 1)))) as [|z L IHL]; [exact IH|].
    cbn [app]. inversion P; subst. constructor.
    + intros I. apply in_app_or in I. destruct I as [I|I]; [contradiction|]. apply (D z); [left; reflexivity|exact I].
    + apply IHL; [assumption|]. intros q Iq. apply D. right. exact Iq.
Qed.
End Proofs.
