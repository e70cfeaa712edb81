(** A concrete collector and concrete functions to call back, for the examples and refutations of C84. *)
From Coq Require Import List Arith Bool Lia.
From Verif Require Import RootModel RootSpec RootProofs RootProofs2.
Import ListNotations.

(** ** A collector: mark from the roots, drop everything else, hand out the lowest free address below [bound].  Where
    [fuel] rounds of marking do not suffice it refuses. *)
Definition ptrs (vs : list val) : list nat := flat_map (fun v => match v with Ptr a => [a] | _ => [] end) vs.
Definition memb (a : nat) (l : list nat) : bool := existsb (Nat.eqb a) l.
Definition kids (h : heap) (a : nat) : list nat := match h a with Some c => ptrs (fields c) | None => [] end.
Fixpoint marking (fuel : nat) (h : heap) (m : list nat) : list nat :=
  match fuel with
  | O => m
  | S f => marking f h (fold_left (fun m a => if memb a m then m else a :: m) (flat_map (kids h) m) m)
  end.
Definition closed (h : heap) (m : list nat) : bool := forallb (fun a => forallb (fun b => memb b m) (kids h a)) m.
Fixpoint first_free (m : list nat) (n a : nat) : option nat :=
  match n with O => None | S k => if memb a m then first_free m k (S a) else Some a end.
Definition sweep (bound fuel : nat) : env_t := fun _ vs h =>
  let m := marking fuel h (ptrs vs) in
  if forallb (fun b => memb b m) (ptrs vs) && closed h m then
    match first_free m bound 0 with
    | Some a => Some (fun b => if memb b m then h b else None, a)
    | None => None
    end
  else None.

Lemma memb_In a l : memb a l = true <-> In a l.
Proof.
  unfold memb. rewrite existsb_exists. split; [intros (x & H & E); apply Nat.eqb_eq in E; subst; exact H|].
  intros H. exists a. split; [exact H|apply Nat.eqb_refl].
Qed.
Lemma ptrs_In a vs : In a (ptrs vs) <-> In (Ptr a) vs.
Proof.
  unfold ptrs. rewrite in_flat_map. split.
  - intros (v & H & Hi). destruct v; [destruct Hi|destruct Hi|]. destruct Hi as [->|[]]. exact H.
  - intros H. exists (Ptr a). split; [exact H|left; reflexivity].
Qed.
Lemma closed_reach h vs m : forallb (fun b => memb b m) (ptrs vs) = true -> closed h m = true ->
  forall a, reach h vs a -> In a m.
Proof.
  intros Hr Hc a H. rewrite forallb_forall in Hr. unfold closed in Hc. rewrite forallb_forall in Hc.
  induction H as [a H|a c b H IH E Hi].
  - apply memb_In. apply Hr. apply ptrs_In. exact H.
  - specialize (Hc a IH). rewrite forallb_forall in Hc. apply memb_In. apply Hc. unfold kids. rewrite E. apply ptrs_In. exact Hi.
Qed.
Lemma first_free_ok m n : forall a b, first_free m n a = Some b -> memb b m = false.
Proof.
  induction n as [|n IH]; intros a b H; cbn [first_free] in H; [discriminate|].
  destruct (memb a m) eqn:E; [eapply IH; exact H|congruence].
Qed.
Lemma sweep_keeps bound fuel : keeps (sweep bound fuel).
Proof.
  intros t vs h h' a H L. unfold sweep in H. set (m := marking fuel h (ptrs vs)) in *.
  destruct (forallb _ (ptrs vs)) eqn:E1; [|discriminate]. cbn [andb] in H.
  destruct (closed h m) eqn:E2; [|discriminate].
  destruct (first_free m bound 0) as [b|] eqn:E3; [|discriminate]. injection H as <- <-. split.
  - intros c R. rewrite (proj2 (memb_In c m)); [reflexivity|]. eapply closed_reach; eauto.
  - rewrite (first_free_ok _ _ _ _ E3). reflexivity.
Qed.
(** a check that everything reachable is allocated *)
Definition live_b (fuel : nat) (h : heap) (vs : list val) : bool :=
  let m := marking fuel h (ptrs vs) in
  forallb (fun b => memb b m) (ptrs vs) && closed h m && forallb (fun a => match h a with Some _ => true | None => false end) m.
Lemma live_b_ok fuel h vs : live_b fuel h vs = true -> live h vs.
Proof.
  unfold live_b. rewrite !andb_true_iff. intros ((A & B) & C) a R.
  pose proof (closed_reach _ _ _ A B a R) as Hm. rewrite forallb_forall in C. specialize (C a Hm).
  destruct (h a); [discriminate|discriminate C].
Qed.

(** ** Functions to call back *)
Fixpoint content (fuel : nat) (h : heap) (v : val) : option tree :=
  match fuel with
  | O => None
  | S f => match v with
           | Nil => Some TNil
           | Atom n => Some (TAtom n)
           | Ptr a => match h a with
                      | Some (Cons x d) => match content f h x, content f h d with
                                           | Some tx, Some td => Some (TCell tx td)
                                           | _, _ => None
                                           end
                      | _ => None
                      end
           end
  end.
Lemma content_rep fuel h : forall v t, content fuel h v = Some t -> rep h v t.
Proof.
  induction fuel as [|f IH]; intros v t H; cbn [content] in H; [discriminate|].
  destruct v as [|n|a]; [injection H as <-; constructor..|]. destruct (h a) as [[x d|]|] eqn:E; try discriminate.
  destruct (content f h x) eqn:E1; [|discriminate]. destruct (content f h d) eqn:E2; [|discriminate]. injection H as <-.
  econstructor; eauto.
Qed.
(** a predicate of the contents; nothing is allocated, so that lastalloc (the last root) stays as it is *)
Definition bool_tree (b : bool) : tree := if b then TAtom 1 else TNil.
Definition predicate (p : tree -> tree -> bool) : fun_t := fun _ vs h args =>
  match args with
  | [x; y] => match content 9 h x, content 9 h y with
              | Some X, Some Y => Some (h, if p X Y then Atom 1 else Nil, List.last vs Nil)
              | _, _ => None
              end
  | _ => None
  end.
Lemma last_live h vs : live h vs -> live h [List.last vs Nil].
Proof.
  intros L. destruct vs as [|v vs]; [apply live_atom; [discriminate|apply live_nil]|].
  eapply live_incl; [|exact L]. intros x [<-|[]]. rewrite (app_removelast_last Nil (l := v :: vs)) at 2 by discriminate.
  apply in_or_app. right. left. reflexivity.
Qed.
Lemma predicate_computes p : computes (predicate p) (fun ts => bool_tree (p (nth 0 ts TNil) (nth 1 ts TNil))).
Proof.
  intros t vs h args ts h' v l H L _ Hr. unfold predicate in H.
  destruct args as [|x [|y [|]]]; try discriminate.
  destruct (content 9 h x) as [X|] eqn:E1; [|discriminate]. destruct (content 9 h y) as [Y|] eqn:E2; [|discriminate].
  injection H as <- <- <-. apply content_rep in E1, E2.
  inversion Hr as [|? X' ? ts' R1 Hr']; subst. inversion Hr' as [|? Y' ? ts'' R2 _]; subst. cbn [nth].
  rewrite (rep_fun _ _ _ R1 _ E1), (rep_fun _ _ _ R2 _ E2). split; [apply same_refl|split; [|apply last_live; exact L]].
  destruct (p X Y); constructor.
Qed.
(** the function list of one argument, which allocates *)
Definition list1 (env : env_t) : fun_t := fun t vs h args =>
  match env t vs h with Some (h', a) => Some (set h' a (Cons (hd Nil args) Nil), Ptr a, Ptr a) | None => None end.
Lemma list1_computes env : keeps env -> computes (list1 env) (fun ts => TCell (hd TNil ts) TNil).
Proof.
  intros K t vs h args ts h' v l H L Hi Hr. unfold list1 in H. destruct (env t vs h) as [[h1 a]|] eqn:E; [|discriminate].
  injection H as <- <- <-. destruct (K _ _ _ _ _ E L) as [S1 E1].
  assert (same h (set h1 a (Cons (hd Nil args) Nil)) vs) as S2.
  { eapply same_trans; [exact S1|apply set_same; [exact E1|eapply same_live; [exact S1|exact L]]|apply cover_incl; apply incl_refl]. }
  assert (rep (set h1 a (Cons (hd Nil args) Nil)) (hd Nil args) (hd TNil ts)) as R.
  { destruct Hr as [|x X args ts R1 _]; [constructor|]. cbn [hd]. eapply rep_same; [exact S2| |exact R1].
    apply cover_incl. intros z [<-|[]]. apply Hi. left. reflexivity. }
  assert (rep (set h1 a (Cons (hd Nil args) Nil)) (Ptr a) (TCell (hd TNil ts) TNil)) as R2.
  { econstructor; [apply set_eq|exact R|constructor]. }
  split; [exact S2|split; [exact R2|eapply rep_live; exact R2]].
Qed.
(** car, which returns a part of its argument *)
Definition car1 : fun_t := fun _ vs h args =>
  match args with
  | [Ptr a] => match h a with Some (Cons x d) => Some (h, x, List.last vs Nil) | _ => None end
  | _ => None
  end.
Definition tcar (t : tree) : tree := match t with TCell a _ => a | _ => TNil end.
Lemma car1_computes : computes car1 (fun ts => tcar (hd TNil ts)).
Proof.
  intros t vs h args ts h' v l H L _ Hr. unfold car1 in H. destruct args as [|[| |a] [|]]; try discriminate.
  destruct (h a) as [[x d|]|] eqn:E; try discriminate. injection H as <- <- <-.
  inversion Hr as [|? X ? ts' R1 _]; subst. inversion R1 as [| |? ? ? ? ? E' Rx Rd]; subst. rewrite E in E'. injection E' as <- <-.
  split; [apply same_refl|split; [exact Rx|apply last_live; exact L]].
Qed.
Lemma car1_accessor : accessor car1.
Proof.
  intros t vs h args h' v l b H Hv. unfold car1 in H. destruct args as [|[| |a] [|]]; try discriminate.
  destruct (h a) as [[x d|]|] eqn:E; try discriminate. injection H as <- <- <-.
  eapply reach_field; [apply reach_root; left; reflexivity|exact E|left; exact Hv].
Qed.

(** ** Reading results *)
Fixpoint elements (fuel : nat) (h : heap) (v : val) : option (list val) :=
  match fuel with
  | O => None
  | S f => match v with
           | Nil => Some []
           | Atom _ => None
           | Ptr a => match h a with
                      | Some (Cons x d) => match elements f h d with Some l => Some (x :: l) | None => None end
                      | _ => None
                      end
           end
  end.
Lemma elements_lst fuel h : forall v l, elements fuel h v = Some l -> lst h v l.
Proof.
  induction fuel as [|f IH]; intros v l H; cbn [elements] in H; [discriminate|].
  destruct v as [|n|a]; [injection H as <-; constructor|discriminate|].
  destruct (h a) as [[x d|]|] eqn:E; try discriminate. destruct (elements f h d) eqn:E1; [|discriminate]. injection H as <-.
  econstructor; [exact E|]. apply IH. exact E1.
Qed.
Definition result (r : res val) : option (list val) := match r with Done v s => elements 9 (hp s) v | _ => None end.
Definition tresult (r : res val) : option tree := match r with Done v s => content 9 (hp s) v | _ => None end.
(** a heap given by its first cells *)
Definition heap_of (l : list cell) : heap := fun a => nth_error l a.
