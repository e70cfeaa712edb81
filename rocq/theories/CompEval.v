(** Facts about the evaluator of [CompLang]: more fuel changes nothing, a variable that a form does not mention does not
    matter, variables keep their places, and a form only jumps and returns to names that are written in it. *)
From Coq Require Import List Arith Bool Lia.
From Verif Require Import CompLang.
Import ListNotations.

(** [g] is not the name of a variable in the form *)
Fixpoint unmentioned (g : nat) (x : exp) : bool :=
  match x with
  | Const _ | Go _ => true
  | Var y => negb (Nat.eqb y g)
  | Setq l => forallb (fun p => negb (Nat.eqb (fst p) g) && unmentioned g (snd p)) l
  | Progn l | And l | Or l | Block _ l | Call _ l => forallb (unmentioned g) l
  | If c a b => unmentioned g c && unmentioned g a && unmentioned g b
  | Cond l => forallb (fun p => unmentioned g (fst p) && forallb (unmentioned g) (snd p)) l
  | While c l => unmentioned g c && forallb (unmentioned g) l
  | Let b l | LetStar b l =>
      forallb (fun p => negb (Nat.eqb (fst p) g) && unmentioned g (snd p)) b && forallb (unmentioned g) l
  | ReturnFrom _ a | Null a | Car a | Cdr a | Is _ a => unmentioned g a
  | Tagbody l => forallb (fun i => match i with inl _ => true | inr a => unmentioned g a end) l
  | Eq a b => unmentioned g a && unmentioned g b
  end.

Lemma tagbody_S : forall L n all rest e s, tagbody L (S n) all rest e s =
  match ev_items L (eval L n) rest e s with
  | Some (Jump t e s) => match after_tag t all with Some l => tagbody L n all l e s | None => Some (Jump t e s) end
  | o => o
  end.
Proof. reflexivity. Qed.

Section Two.
Variable L : lisp.
Variable g : nat.
Variable u : V.
Variable w : bool.     (* whether there is a further variable [g] in the second environment *)
Variable d : nat.      (* how much more fuel the second evaluation has *)

(** The second environment has [g] after the first [p] entries. *)
Inductive R : nat -> env -> env -> Prop :=
| R_here : forall e, R 0 e (if w then (g, u) :: e else e)
| R_push : forall p b e e', R p e e' -> R (S p) (b :: e) (b :: e').

Definition orel {A} (p : nat) (o o' : option (out L A)) : Prop :=
  match o with
  | None => d = 0 -> o' = None
  | Some (Normal a e s) => exists e', o' = Some (Normal a e' s) /\ R p e e'
  | Some (Exit b v e s) => exists e', o' = Some (Exit b v e' s) /\ R p e e'
  | Some (Jump t e s) => exists e', o' = Some (Jump t e' s) /\ R p e e'
  | Some Err => o' = Some Err
  end.

Lemma orel_normal : forall A p (a : A) e e' s, R p e e' -> orel p (Some (Normal a e s)) (Some (Normal a e' s)).
Proof. intros. exists e'. auto. Qed.

Lemma orel_bind : forall A B p (o o' : option (out L A)) (k k' : A -> env -> state L -> option (out L B)),
  orel p o o' -> (forall a e e' s, R p e e' -> orel p (k a e s) (k' a e' s)) ->
  orel p (obind L o k) (obind L o' k').
Proof.
  intros A B p o o' k k' H K. destruct o as [[a e s|b v e s|t e s|]|]; cbn in *.
  - destruct H as (e' & -> & H). apply K. exact H.
  - destruct H as (e' & -> & H). exists e'. auto.
  - destruct H as (e' & -> & H). exists e'. auto.
  - rewrite H. reflexivity.
  - intros D. rewrite (H D). reflexivity.
Qed.

Lemma orel_leave : forall A p q (o o' : option (out L A)) fe fg,
  orel p o o' -> (forall e e', R p e e' -> R q (fe e) (fe e')) -> orel q (leave L fe fg o) (leave L fe fg o').
Proof.
  intros A p q o o' fe fg H K. destruct o as [[a e s|b v e s|t e s|]|]; cbn in *.
  1-3: destruct H as (e' & -> & H); eexists; split; [reflexivity|apply K; exact H].
  - rewrite H. reflexivity.
  - intros D. rewrite (H D). reflexivity.
Qed.

Lemma orel_block : forall p name o o', orel p o o' -> orel p (catch_block L name o) (catch_block L name o').
Proof.
  intros p name o o' H. destruct o as [[a e s|b v e s|t e s|]|]; cbn in *.
  - destruct H as (e' & -> & H). exists e'. auto.
  - destruct H as (e' & -> & H). cbn. destruct (Nat.eqb b name); exists e'; auto.
  - destruct H as (e' & -> & H). exists e'. auto.
  - rewrite H. reflexivity.
  - intros D. rewrite (H D). reflexivity.
Qed.

Lemma R_assoc : forall x p e e', (w = true -> Nat.eqb x g = false) -> R p e e' -> assoc x e' = assoc x e.
Proof.
  intros x p e e' N H. induction H as [e|p [y v] e e' H IH].
  - destruct w; [|reflexivity]. cbn [assoc]. rewrite Nat.eqb_sym, N by reflexivity. reflexivity.
  - cbn [assoc]. rewrite IH. reflexivity.
Qed.

Lemma R_assign : forall x v p e e', (w = true -> Nat.eqb x g = false) -> R p e e' -> R p (assign x v e) (assign x v e').
Proof.
  intros x v p e e' N H. induction H as [e|p [y t] e e' H IH].
  - destruct w eqn:E.
    + cbn [assign]. rewrite Nat.eqb_sym, N by reflexivity. pose proof (R_here (assign x v e)) as H. rewrite E in H. exact H.
    + pose proof (R_here (assign x v e)) as H. rewrite E in H. exact H.
  - cbn [assign]. destruct (Nat.eqb y x); apply R_push; assumption.
Qed.

Lemma R_read : forall x p e e' s, (w = true -> Nat.eqb x g = false) -> R p e e' -> read L x e' s = read L x e s.
Proof. intros x p e e' s N H. unfold read. rewrite (R_assoc x p e e' N H). reflexivity. Qed.

Lemma R_write : forall x v p e e' s, (w = true -> Nat.eqb x g = false) -> R p e e' ->
  snd (write L x v e' s) = snd (write L x v e s) /\ R p (fst (write L x v e s)) (fst (write L x v e' s)).
Proof.
  intros x v p e e' s N H. unfold write. rewrite (R_assoc x p e e' N H).
  destruct (special L x); [auto|]. destruct (assoc x e); [|auto]. split; [reflexivity|]. apply R_assign; assumption.
Qed.

Lemma R_app : forall l p e e', R p e e' -> R (length l + p) (l ++ e) (l ++ e').
Proof. intros l p e e' H. induction l as [|b l IH]; [exact H|]. cbn [length app Nat.add]. apply R_push. exact IH. Qed.

Lemma R_skip : forall k p e e', R (k + p) e e' -> R p (skipn k e) (skipn k e').
Proof.
  induction k as [|k IH]; intros p e e' H; [exact H|]. cbn [Nat.add] in H. inversion H; subst. cbn [skipn]. apply IH. assumption.
Qed.

Ltac sp := match goal with
  | H : w = true -> _ && _ = true |- w = true -> _ => let X := fresh in intros X; specialize (H X);
      repeat match goal with K : _ && _ = true |- _ => apply andb_prop in K as [? ?] end;
      repeat match goal with K : negb _ = true |- _ => apply negb_true_iff in K end; assumption
  end.

Section Forms.
Variables ev ev' : exp -> env -> state L -> option (out L V).
Hypothesis IH : forall x p e e' s, (w = true -> unmentioned g x = true) -> R p e e' -> orel p (ev x e s) (ev' x e' s).

Lemma progn_rel : forall l p e e' s, (w = true -> forallb (unmentioned g) l = true) -> R p e e' ->
  orel p (ev_progn L ev l e s) (ev_progn L ev' l e' s).
Proof.
  induction l as [|a l IHl]; intros p e e' s N H; [apply orel_normal; exact H|].
  cbn [forallb] in N. destruct l as [|b l].
  - cbn [ev_progn]. apply IH; [sp|exact H].
  - change (ev_progn L ev (a :: b :: l) e s) with (obind L (ev a e s) (fun _ e s => ev_progn L ev (b :: l) e s)).
    change (ev_progn L ev' (a :: b :: l) e' s) with (obind L (ev' a e' s) (fun _ e s => ev_progn L ev' (b :: l) e s)).
    apply orel_bind; [apply IH; [sp|exact H]|]. intros _ e1 e1' s1 H1. apply IHl; [sp|exact H1].
Qed.

Lemma args_rel : forall l p e e' s, (w = true -> forallb (unmentioned g) l = true) -> R p e e' ->
  orel p (ev_args L ev l e s) (ev_args L ev' l e' s).
Proof.
  induction l as [|a l IHl]; intros p e e' s N H; [apply orel_normal; exact H|]. cbn [forallb] in N. cbn [ev_args].
  apply orel_bind; [apply IH; [sp|exact H]|]. intros v e1 e1' s1 H1.
  apply orel_bind; [apply IHl; [sp|exact H1]|]. intros vs e2 e2' s2 H2. apply orel_normal. exact H2.
Qed.

Lemma setq_rel : forall l p e e' s,
  (w = true -> forallb (fun p => negb (Nat.eqb (fst p) g) && unmentioned g (snd p)) l = true) -> R p e e' ->
  orel p (ev_setq L ev l e s) (ev_setq L ev' l e' s).
Proof.
  induction l as [|[x a] l IHl]; intros p e e' s N H; [apply orel_normal; exact H|]. cbn [forallb fst snd] in N. cbn [ev_setq].
  apply orel_bind; [apply IH; [sp|exact H]|]. intros v e1 e1' s1 H1.
  assert (N' : w = true -> Nat.eqb x g = false) by sp.
  destruct (R_write x v p e1 e1' s1 N' H1) as [E H2].
  destruct l as [|q l]; [rewrite E; apply orel_normal; exact H2|]. rewrite E. apply IHl; [sp|exact H2].
Qed.

Lemma and_rel : forall l p e e' s, (w = true -> forallb (unmentioned g) l = true) -> R p e e' ->
  orel p (ev_and L ev l e s) (ev_and L ev' l e' s).
Proof.
  induction l as [|a l IHl]; intros p e e' s N H; [apply orel_normal; exact H|].
  cbn [forallb] in N. destruct l as [|b l].
  - cbn [ev_and]. apply IH; [sp|exact H].
  - change (ev_and L ev (a :: b :: l) e s) with (obind L (ev a e s) (fun v e s => if V_eqb v NIL then Some (Normal NIL e s) else ev_and L ev (b :: l) e s)).
    change (ev_and L ev' (a :: b :: l) e' s) with (obind L (ev' a e' s) (fun v e s => if V_eqb v NIL then Some (Normal NIL e s) else ev_and L ev' (b :: l) e s)).
    apply orel_bind; [apply IH; [sp|exact H]|]. intros v e1 e1' s1 H1.
    destruct (V_eqb v NIL); [apply orel_normal; exact H1|]. apply IHl; [sp|exact H1].
Qed.

Lemma or_rel : forall l p e e' s, (w = true -> forallb (unmentioned g) l = true) -> R p e e' ->
  orel p (ev_or L ev l e s) (ev_or L ev' l e' s).
Proof.
  induction l as [|a l IHl]; intros p e e' s N H; [apply orel_normal; exact H|].
  cbn [forallb] in N. destruct l as [|b l].
  - cbn [ev_or]. apply IH; [sp|exact H].
  - change (ev_or L ev (a :: b :: l) e s) with (obind L (ev a e s) (fun v e s => if V_eqb v NIL then ev_or L ev (b :: l) e s else Some (Normal v e s))).
    change (ev_or L ev' (a :: b :: l) e' s) with (obind L (ev' a e' s) (fun v e s => if V_eqb v NIL then ev_or L ev' (b :: l) e s else Some (Normal v e s))).
    apply orel_bind; [apply IH; [sp|exact H]|]. intros v e1 e1' s1 H1.
    destruct (V_eqb v NIL); [|apply orel_normal; exact H1]. apply IHl; [sp|exact H1].
Qed.

Lemma cond_rel : forall l p e e' s,
  (w = true -> forallb (fun p => unmentioned g (fst p) && forallb (unmentioned g) (snd p)) l = true) -> R p e e' ->
  orel p (ev_cond L ev l e s) (ev_cond L ev' l e' s).
Proof.
  induction l as [|[c body] l IHl]; intros p e e' s N H; [apply orel_normal; exact H|]. cbn [forallb fst snd] in N. cbn [ev_cond].
  apply orel_bind; [apply IH; [sp|exact H]|]. intros v e1 e1' s1 H1.
  destruct (V_eqb v NIL); [apply IHl; [sp|exact H1]|].
  destruct body as [|b body]; [apply orel_normal; exact H1|]. apply progn_rel; [sp|exact H1].
Qed.

Lemma map_snd_un : forall (b : list (nat * exp)),
  forallb (fun p => negb (Nat.eqb (fst p) g) && unmentioned g (snd p)) b = true -> forallb (unmentioned g) (map snd b) = true.
Proof.
  induction b as [|[x a] b IHb]; intros H; [reflexivity|]. cbn [forallb fst snd map] in *.
  apply andb_prop in H as [H1 H2]. apply andb_prop in H1 as [_ H1]. rewrite H1. apply IHb. exact H2.
Qed.

(** [let] with any continuation in place of the body *)
Definition bind_then (b : list (nat * exp)) (k : env -> state L -> option (out L V)) (ev : exp -> env -> state L -> option (out L V))
    (e : env) (s : state L) : option (out L V) :=
  obind L (ev_args L ev (map snd b) e s) (fun vs e s =>
  let pairs := combine (map fst b) vs in
  let lex := filter (fun p => negb (special L (fst p))) pairs in
  let bs := bind_specials (filter (fun p => special L (fst p)) pairs) (gl L s) in
  leave L (skipn (length lex)) (restore (snd bs)) (k (rev lex ++ e) (mkState L (fst bs) (wd L s)))).

Lemma let_rel : forall b k k' p e e' s,
  (w = true -> forallb (fun p => negb (Nat.eqb (fst p) g) && unmentioned g (snd p)) b = true) -> R p e e' ->
  (forall q e e' s, R q e e' -> orel q (k e s) (k' e' s)) ->
  orel p (bind_then b k ev e s) (bind_then b k' ev' e' s).
Proof.
  intros b k k' p e e' s N H K. unfold bind_then.
  apply orel_bind; [apply args_rel; [intros X; apply map_snd_un; exact (N X)|exact H]|].
  intros vs e1 e1' s1 H1. set (lex := filter _ _).
  apply orel_leave with (p := length lex + p).
  - apply K. rewrite <- (rev_length lex). apply R_app. exact H1.
  - intros x x' X. apply R_skip. exact X.
Qed.

Lemma letstar_rel : forall b body p e e' s,
  (w = true -> forallb (fun p => negb (Nat.eqb (fst p) g) && unmentioned g (snd p)) b && forallb (unmentioned g) body = true) -> R p e e' ->
  orel p (ev_letstar L ev b body e s) (ev_letstar L ev' b body e' s).
Proof.
  induction b as [|[x a] b IHb]; intros body p e e' s N H.
  - cbn [ev_letstar]. apply progn_rel; [exact N|exact H].
  - cbn [forallb fst snd] in N. cbn [ev_letstar].
    apply orel_bind; [apply IH; [sp|exact H]|]. intros v e1 e1' s1 H1.
    assert (N' : w = true -> forallb (fun p => negb (Nat.eqb (fst p) g) && unmentioned g (snd p)) b && forallb (unmentioned g) body = true).
    { intros X. specialize (N X). apply andb_prop in N as [N1 N2]. apply andb_prop in N1 as [_ N1]. rewrite N1, N2. reflexivity. }
    destruct (special L x).
    + apply orel_leave with (p := p); [apply IHb; assumption|auto].
    + apply orel_leave with (p := S p); [apply IHb; [assumption|apply R_push; exact H1]|].
      intros y y' Y. inversion Y; subst. assumption.
Qed.

Lemma items_rel : forall l p e e' s,
  (w = true -> forallb (fun i => match i with inl _ => true | inr a => unmentioned g a end) l = true) -> R p e e' ->
  orel p (ev_items L ev l e s) (ev_items L ev' l e' s).
Proof.
  induction l as [|[t|a] l IHl]; intros p e e' s N H; [apply orel_normal; exact H| |]; cbn [forallb] in N; cbn [ev_items].
  - apply IHl; [exact N|exact H].
  - apply orel_bind; [apply IH; [sp|exact H]|]. intros _ e1 e1' s1 H1. apply IHl; [sp|exact H1].
Qed.
End Forms.

Lemma after_un : forall t l r,
  forallb (fun i => match i with inl _ => true | inr a => unmentioned g a end) l = true -> after_tag t l = Some r ->
  forallb (fun i => match i with inl _ => true | inr a => unmentioned g a end) r = true.
Proof.
  induction l as [|[t'|a] l IHl]; intros r H E; cbn [after_tag forallb] in *; [discriminate| |].
  - destruct (Nat.eqb t' t); [inversion E; subst; exact H|apply IHl; assumption].
  - apply andb_prop in H as [_ H]. apply IHl; assumption.
Qed.

Lemma eval_rel : forall n,
  (forall x p e e' s, (w = true -> unmentioned g x = true) -> R p e e' -> orel p (eval L n x e s) (eval L (n + d) x e' s)) /\
  (forall all rest p e e' s,
     (w = true -> forallb (fun i => match i with inl _ => true | inr a => unmentioned g a end) all = true) ->
     (w = true -> forallb (fun i => match i with inl _ => true | inr a => unmentioned g a end) rest = true) -> R p e e' ->
     orel p (tagbody L n all rest e s) (tagbody L (n + d) all rest e' s)).
Proof.
  induction n as [|n [IH IT]].
  - split; intros; cbn; intros ->; reflexivity.
  - cbn [Nat.add]. split.
    + intros x p e e' s N H. destruct x; cbn [eval]; cbn [unmentioned] in N.
      * apply orel_normal. exact H.
      * rewrite (R_read x p e e' s); [apply orel_normal; exact H| |exact H].
        intros X. specialize (N X). apply negb_true_iff in N. exact N.
      * apply setq_rel; assumption.
      * apply progn_rel; assumption.
      * apply orel_bind; [apply IH; [sp|exact H]|]. intros v e1 e1' s1 H1.
        destruct (V_eqb v NIL); apply IH; try sp; exact H1.
      * apply cond_rel; assumption.
      * apply and_rel; assumption.
      * apply or_rel; assumption.
      * apply orel_block. apply orel_bind; [apply IH; [sp|exact H]|]. intros v e1 e1' s1 H1.
        destruct (V_eqb v NIL); [apply orel_normal; exact H1|].
        apply orel_bind; [apply progn_rel; [exact IH|sp|exact H1]|]. intros _ e2 e2' s2 H2.
        apply IH; [exact N|exact H2].
      * apply (let_rel (eval L n) (eval L (n + d)) IH); [sp|exact H|]. intros q f f' s1 F.
        apply progn_rel; [exact IH|sp|exact F].
      * apply letstar_rel; assumption.
      * apply orel_block. apply progn_rel; assumption.
      * apply orel_bind; [apply IH; assumption|]. intros v e1 e1' s1 H1. exists e1'. auto.
      * apply IT; assumption.
      * exists e'. auto.
      * apply orel_bind; [apply args_rel; assumption|]. intros vs e1 e1' s1 H1.
        destruct (call L f vs (gl L s1) (wd L s1)) as [[[v gg] ww]|]; [apply orel_normal; exact H1|reflexivity].
      * apply orel_bind; [apply IH; assumption|]. intros v e1 e1' s1 H1. apply orel_normal; exact H1.
      * apply orel_bind; [apply IH; [sp|exact H]|]. intros v e1 e1' s1 H1.
        apply orel_bind; [apply IH; [sp|exact H1]|]. intros v2 e2 e2' s2 H2. apply orel_normal; exact H2.
      * apply orel_bind; [apply IH; assumption|]. intros v e1 e1' s1 H1.
        destruct (islist L v (wd L s1)); [apply orel_normal; exact H1|reflexivity].
      * apply orel_bind; [apply IH; assumption|]. intros v e1 e1' s1 H1.
        destruct (islist L v (wd L s1)); [apply orel_normal; exact H1|reflexivity].
      * apply orel_bind; [apply IH; assumption|]. intros v e1 e1' s1 H1. apply orel_normal; exact H1.
    + intros all rest p e e' s N N' H. rewrite !tagbody_S.
      pose proof (items_rel _ _ IH rest p e e' s N' H) as Q.
      destruct (ev_items L (eval L n) rest e s) as [[a e1 s1|b v e1 s1|t e1 s1|]|].
      * destruct Q as (f & -> & Q). exists f. auto.
      * destruct Q as (f & -> & Q). exists f. auto.
      * destruct Q as (f & -> & Q). destruct (after_tag t all) as [l|] eqn:E.
        -- apply IT; [exact N| |exact Q]. intros X. apply (after_un t all); [exact (N X)|exact E].
        -- exists f. auto.
      * cbn in Q. rewrite Q. reflexivity.
      * cbn in Q. intros D. rewrite (Q D). reflexivity.
Qed.
End Two.

(** ** One evaluation *)

(** Every form in the form satisfies [P] *)
Fixpoint every (P : exp -> bool) (x : exp) : bool :=
  P x &&
  match x with
  | Const _ | Go _ | Var _ => true
  | Setq l => forallb (fun p => every P (snd p)) l
  | Progn l | And l | Or l | Block _ l | Call _ l => forallb (every P) l
  | If c a b => every P c && every P a && every P b
  | Cond l => forallb (fun p => every P (fst p) && forallb (every P) (snd p)) l
  | While c l => every P c && forallb (every P) l
  | Let b l | LetStar b l => forallb (fun p => every P (snd p)) b && forallb (every P) l
  | ReturnFrom _ a | Null a | Car a | Cdr a | Is _ a => every P a
  | Tagbody l => forallb (fun i => match i with inl _ => true | inr a => every P a end) l
  | Eq a b => every P a && every P b
  end.

Lemma every_head : forall P x, every P x = true -> P x = true.
Proof. intros P x H. destruct x; cbn [every] in H; apply andb_prop in H; tauto. Qed.

Section One.
Variable L : lisp.
Variables pgo pret pset : nat -> bool.

(** goes, return-froms and setqs only of the allowed names *)
Definition allowed (x : exp) : bool :=
  match x with
  | Go t => pgo t
  | ReturnFrom b _ => pret b
  | Setq l => forallb (fun p => pset (fst p)) l
  | _ => true
  end.

Definition kept (e e' : env) : Prop := Forall2 (fun a b => fst a = fst b /\ (pset (fst a) = false -> a = b)) e e'.

Lemma kept_refl : forall e, kept e e. Proof. intros e. induction e; constructor; auto. Qed.
Lemma kept_trans : forall a b c, kept a b -> kept b c -> kept a c.
Proof.
  intros a b c H. revert c. induction H as [|x y a b [H1 H2] H IH]; intros c K; inversion K as [|? z ? c' [K1 K2] K3]; subst; constructor.
  - split; [congruence|]. intros X. rewrite H2 by exact X. apply K2. rewrite <- H1. exact X.
  - apply IH. exact K3.
Qed.
Lemma kept_assign : forall x v e, pset x = true -> kept e (assign x v e).
Proof.
  intros x v e H. induction e as [|[y t] e IH]; [constructor|]. cbn [assign]. destruct (Nat.eqb y x) eqn:E.
  - apply Nat.eqb_eq in E. subst y. constructor; [|apply kept_refl]. cbn. split; [reflexivity|]. congruence.
  - constructor; [auto|exact IH].
Qed.
Lemma kept_write : forall x v e s, pset x = true -> kept e (fst (write L x v e s)).
Proof.
  intros x v e s H. unfold write. destruct (special L x); [apply kept_refl|]. destruct (assoc x e); [|apply kept_refl].
  apply kept_assign. exact H.
Qed.
Lemma kept_skip : forall l e e', kept (l ++ e) e' -> kept e (skipn (length l) e').
Proof.
  induction l as [|b l IH]; intros e e' H; [exact H|]. cbn [app] in H. inversion H; subst. cbn [length skipn]. apply IH. assumption.
Qed.

Definition fine {A} (e : env) (o : option (out L A)) : Prop :=
  match o with
  | Some (Normal _ e' _) => kept e e'
  | Some (Exit b _ e' _) => kept e e' /\ pret b = true
  | Some (Jump t e' _) => kept e e' /\ pgo t = true
  | _ => True
  end.

Lemma fine_bind : forall A B e (o : option (out L A)) (k : A -> env -> state L -> option (out L B)),
  fine e o -> (forall a e1 s1, kept e e1 -> fine e1 (k a e1 s1)) -> fine e (obind L o k).
Proof.
  intros A B e o k H K. destruct o as [[a e1 s1|b v e1 s1|t e1 s1|]|]; cbn in *; try exact H; try exact I.
  specialize (K a e1 s1 H). destruct (k a e1 s1) as [[a2 e2 s2|b v e2 s2|t e2 s2|]|]; cbn in *; try exact I.
  - eapply kept_trans; eassumption.
  - destruct K; split; [eapply kept_trans; eassumption|assumption].
  - destruct K; split; [eapply kept_trans; eassumption|assumption].
Qed.

Lemma fine_leave : forall A e e0 fe fg (o : option (out L A)), fine e0 o -> (forall e', kept e0 e' -> kept e (fe e')) ->
  fine e (leave L fe fg o).
Proof.
  intros A e e0 fe fg o H K. destruct o as [[a e1 s1|b v e1 s1|t e1 s1|]|]; cbn in *; try exact I; try (apply K; exact H).
  - destruct H; split; [apply K; assumption|assumption].
  - destruct H; split; [apply K; assumption|assumption].
Qed.

Lemma fine_block : forall e name o, fine e o -> fine e (catch_block L name o).
Proof.
  intros e name o H. destruct o as [[a e1 s1|b v e1 s1|t e1 s1|]|]; cbn in *; try exact I; try exact H.
  destruct (Nat.eqb b name); [apply H|exact H].
Qed.

Ltac andb := repeat match goal with K : _ && _ = true |- _ => apply andb_prop in K as [? ?] end.

Section Forms.
Variable ev : exp -> env -> state L -> option (out L V).
Hypothesis IH : forall x e s, every allowed x = true -> fine e (ev x e s).

Lemma progn_fine : forall l e s, forallb (every allowed) l = true -> fine e (ev_progn L ev l e s).
Proof.
  induction l as [|a l IHl]; intros e s H; [apply kept_refl|]. cbn [forallb] in H. andb. destruct l as [|b l].
  - cbn [ev_progn]. apply IH. assumption.
  - change (ev_progn L ev (a :: b :: l) e s) with (obind L (ev a e s) (fun _ e s => ev_progn L ev (b :: l) e s)).
    apply fine_bind; [apply IH; assumption|]. intros _ e1 s1 _. apply IHl. assumption.
Qed.

Lemma args_fine : forall l e s, forallb (every allowed) l = true -> fine e (ev_args L ev l e s).
Proof.
  induction l as [|a l IHl]; intros e s H; [apply kept_refl|]. cbn [forallb] in H. andb. cbn [ev_args].
  apply fine_bind; [apply IH; assumption|]. intros v e1 s1 _.
  apply fine_bind; [apply IHl; assumption|]. intros vs e2 s2 _. apply kept_refl.
Qed.

Lemma setq_fine : forall l e s, forallb (fun p => pset (fst p)) l = true -> forallb (fun p => every allowed (snd p)) l = true ->
  fine e (ev_setq L ev l e s).
Proof.
  induction l as [|[x a] l IHl]; intros e s H H'; [apply kept_refl|]. cbn [forallb fst snd] in *. andb. cbn [ev_setq].
  apply fine_bind; [apply IH; assumption|]. intros v e1 s1 _. destruct l as [|q l].
  - apply kept_write. assumption.
  - pose proof (IHl (fst (write L x v e1 s1)) (snd (write L x v e1 s1)) H2 H1) as Q.
    pose proof (kept_write x v e1 s1 H) as W.
    destruct (ev_setq L ev (q :: l) _ _) as [[a2 e2 s2|b2 v2 e2 s2|t e2 s2|]|]; cbn [fine] in *; try exact I;
      try (eapply kept_trans; eassumption); destruct Q; split; try assumption; eapply kept_trans; eassumption.
Qed.

Lemma and_fine : forall l e s, forallb (every allowed) l = true -> fine e (ev_and L ev l e s).
Proof.
  induction l as [|a l IHl]; intros e s H; [apply kept_refl|]. cbn [forallb] in H. andb. destruct l as [|b l].
  - cbn [ev_and]. apply IH. assumption.
  - change (ev_and L ev (a :: b :: l) e s) with (obind L (ev a e s) (fun v e s => if V_eqb v NIL then Some (Normal NIL e s) else ev_and L ev (b :: l) e s)).
    apply fine_bind; [apply IH; assumption|]. intros v e1 s1 _. destruct (V_eqb v NIL); [apply kept_refl|apply IHl; assumption].
Qed.

Lemma or_fine : forall l e s, forallb (every allowed) l = true -> fine e (ev_or L ev l e s).
Proof.
  induction l as [|a l IHl]; intros e s H; [apply kept_refl|]. cbn [forallb] in H. andb. destruct l as [|b l].
  - cbn [ev_or]. apply IH. assumption.
  - change (ev_or L ev (a :: b :: l) e s) with (obind L (ev a e s) (fun v e s => if V_eqb v NIL then ev_or L ev (b :: l) e s else Some (Normal v e s))).
    apply fine_bind; [apply IH; assumption|]. intros v e1 s1 _. destruct (V_eqb v NIL); [apply IHl; assumption|apply kept_refl].
Qed.

Lemma cond_fine : forall l e s, forallb (fun p => every allowed (fst p) && forallb (every allowed) (snd p)) l = true ->
  fine e (ev_cond L ev l e s).
Proof.
  induction l as [|[c body] l IHl]; intros e s H; [apply kept_refl|]. cbn [forallb fst snd] in H. andb. cbn [ev_cond].
  apply fine_bind; [apply IH; assumption|]. intros v e1 s1 _. destruct (V_eqb v NIL); [apply IHl; assumption|].
  destruct body; [apply kept_refl|]. apply progn_fine. assumption.
Qed.

Lemma bind_fine : forall b k e s, forallb (fun p => every allowed (snd p)) b = true ->
  (forall e s, fine e (k e s)) -> fine e (bind_then L b k ev e s).
Proof.
  intros b k e s H K. unfold bind_then. apply fine_bind.
  - apply args_fine. clear - H. induction b as [|p b IHb]; [reflexivity|]. cbn [forallb map] in *. andb.
    rewrite H, IHb by assumption. reflexivity.
  - intros vs e1 s1 _. set (lex := filter _ _). apply fine_leave with (e0 := rev lex ++ e1); [apply K|].
    intros e' X. rewrite <- (rev_length lex). apply kept_skip. exact X.
Qed.

Lemma letstar_fine : forall b body e s, forallb (fun p => every allowed (snd p)) b = true ->
  forallb (every allowed) body = true -> fine e (ev_letstar L ev b body e s).
Proof.
  induction b as [|[x a] b IHb]; intros body e s H H'; cbn [ev_letstar]; [apply progn_fine; exact H'|].
  cbn [forallb fst snd] in H. andb. apply fine_bind; [apply IH; assumption|]. intros v e1 s1 _.
  destruct (special L x).
  - apply fine_leave with (e0 := e1); [apply IHb; assumption|auto].
  - apply fine_leave with (e0 := (x, v) :: e1); [apply IHb; assumption|]. intros e' X. inversion X; subst. assumption.
Qed.

Lemma items_fine : forall l e s, forallb (fun i => match i with inl _ => true | inr a => every allowed a end) l = true ->
  fine e (ev_items L ev l e s).
Proof.
  induction l as [|[t|a] l IHl]; intros e s H; cbn [forallb] in H; cbn [ev_items]; [apply kept_refl|apply IHl; exact H|].
  andb. apply fine_bind; [apply IH; assumption|]. intros _ e1 s1 _. apply IHl. assumption.
Qed.
End Forms.

Lemma after_fine : forall t l r,
  forallb (fun i => match i with inl _ => true | inr a => every allowed a end) l = true -> after_tag t l = Some r ->
  forallb (fun i => match i with inl _ => true | inr a => every allowed a end) r = true.
Proof.
  induction l as [|[t'|a] l IHl]; intros r H E; cbn [after_tag forallb] in *; [discriminate| |].
  - destruct (Nat.eqb t' t); [inversion E; subst; exact H|apply IHl; assumption].
  - apply andb_prop in H as [_ H]. apply IHl; assumption.
Qed.

Lemma eval_fine : forall n,
  (forall x e s, every allowed x = true -> fine e (eval L n x e s)) /\
  (forall all rest e s, forallb (fun i => match i with inl _ => true | inr a => every allowed a end) all = true ->
     forallb (fun i => match i with inl _ => true | inr a => every allowed a end) rest = true ->
     fine e (tagbody L n all rest e s)).
Proof.
  induction n as [|n [IH IT]]; [split; intros; exact I|]. split.
  - intros x e s H. pose proof (every_head allowed x H) as P. destruct x; cbn [every] in H; cbn [eval]; andb.
    + apply kept_refl.
    + apply kept_refl.
    + apply setq_fine; [exact IH|exact P|assumption].
    + apply progn_fine; assumption.
    + apply fine_bind; [apply IH; assumption|]. intros v e1 s1 _. destruct (V_eqb v NIL); apply IH; assumption.
    + apply cond_fine; assumption.
    + apply and_fine; assumption.
    + apply or_fine; assumption.
    + apply fine_block. apply fine_bind; [apply IH; assumption|]. intros v e1 s1 _.
      destruct (V_eqb v NIL); [apply kept_refl|]. apply fine_bind; [apply progn_fine; assumption|].
      intros _ e2 s2 _. apply IH. cbn [every]. rewrite P. cbn [andb].
      repeat match goal with K : _ = true |- _ => rewrite K end. reflexivity.
    + apply (bind_fine (eval L n) IH); [assumption|]. intros f s1. apply progn_fine; assumption.
    + apply letstar_fine; assumption.
    + apply fine_block. apply progn_fine; assumption.
    + apply fine_bind; [apply IH; assumption|]. intros v e1 s1 _. split; [apply kept_refl|exact P].
    + apply IT; assumption.
    + split; [apply kept_refl|exact P].
    + apply fine_bind; [apply args_fine; assumption|]. intros vs e1 s1 _.
      destruct (call L f vs (gl L s1) (wd L s1)) as [[[v gg] ww]|]; [apply kept_refl|exact I].
    + apply fine_bind; [apply IH; assumption|]. intros; apply kept_refl.
    + apply fine_bind; [apply IH; assumption|]. intros v e1 s1 _.
      apply fine_bind; [apply IH; assumption|]. intros; apply kept_refl.
    + apply fine_bind; [apply IH; assumption|]. intros v e1 s1 _. destruct (islist L v (wd L s1)); [apply kept_refl|exact I].
    + apply fine_bind; [apply IH; assumption|]. intros v e1 s1 _. destruct (islist L v (wd L s1)); [apply kept_refl|exact I].
    + apply fine_bind; [apply IH; assumption|]. intros; apply kept_refl.
  - intros all rest e s N N'. rewrite tagbody_S. pose proof (items_fine _ IH rest e s N') as Q.
    destruct (ev_items L (eval L n) rest e s) as [[a e1 s1|b v e1 s1|t e1 s1|]|]; try exact Q.
    destruct (after_tag t all) as [l|] eqn:E; [|exact Q]. destruct Q as [Q _].
    pose proof (IT all l e1 s1 N (after_fine t all l N E)) as X.
    destruct (tagbody L n all l e1 s1) as [[a2 e2 s2|b v e2 s2|t2 e2 s2|]|]; cbn [fine] in *; try exact I;
      try (eapply kept_trans; eassumption); destruct X; split; try assumption; eapply kept_trans; eassumption.
Qed.
End One.

(** ** What is used of the two sections *)

Section Use.
Variable L : lisp.

Lemma R_same : forall g u e e', R g u false 0 e e' -> e' = e.
Proof. intros g u e e' H. inversion H; subst. reflexivity. Qed.

Lemma orel_same : forall A g u d (o o' : option (out L A)) r, orel L g u false d 0 o o' -> o = Some r -> o' = Some r.
Proof.
  intros A g u d o o' r H ->. destruct r as [a e s|b v e s|t e s|]; cbn in H; try assumption;
    destruct H as (e' & -> & H); apply R_same in H; subst; reflexivity.
Qed.

Lemma eval_more : forall n m x e s o, n <= m -> eval L n x e s = Some o -> eval L m x e s = Some o.
Proof.
  intros n m x e s o H E. replace m with (n + (m - n)) by lia.
  apply (orel_same _ 0 NIL (m - n) (eval L n x e s)); [|exact E].
  apply (eval_rel L 0 NIL false (m - n) n); [discriminate|apply R_here].
Qed.

Lemma progn_more : forall n m l e s o, n <= m -> ev_progn L (eval L n) l e s = Some o -> ev_progn L (eval L m) l e s = Some o.
Proof. intros n m l e s o H E. apply (eval_more (S n) (S m) (Progn l)); [lia|exact E]. Qed.

Lemma setq_more : forall n m l e s o, n <= m -> ev_setq L (eval L n) l e s = Some o -> ev_setq L (eval L m) l e s = Some o.
Proof. intros n m l e s o H E. apply (eval_more (S n) (S m) (Setq l)); [lia|exact E]. Qed.

Lemma args_more : forall n m l e s o, n <= m -> ev_args L (eval L n) l e s = Some o -> ev_args L (eval L m) l e s = Some o.
Proof.
  intros n m l e s o H E. replace m with (n + (m - n)) by lia.
  apply (orel_same _ 0 NIL (m - n) (ev_args L (eval L n) l e s)); [|exact E].
  apply args_rel; [|discriminate|apply R_here]. intros x p f f' s' X F. apply eval_rel; assumption.
Qed.
End Use.
