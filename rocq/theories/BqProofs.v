(** Evaluating the expansion of a backquote template fills the template. *)
From Verif Require Export BqModel.

(** Specification.  A template is a list structure with holes: an element may be a comma form, a spliced form or
    a template, and a comma form may stand for the tail. *)
Inductive tmpl :=
| TNil
| TAtom (x : datum)
| TComma (form : datum)
| TElem (form : datum) (t : tmpl)
| TSplice (form : datum) (t : tmpl)
| TCons (a t : tmpl).

(** what the reader reads for it *)
Fixpoint text (t : tmpl) : datum :=
  match t with
  | TNil => Nil
  | TAtom x => x
  | TComma f => read_comma false f
  | TElem f t => Cons (read_comma false f) (text t)
  | TSplice f t => Cons (read_comma true f) (text t)
  | TCons a t => Cons (text a) (text t)
  end.

(** the literal atoms of a template are not the two marker symbols *)
Fixpoint literal (t : tmpl) : Prop :=
  match t with
  | TNil | TComma _ => True
  | TAtom x => atom x = true /\ x <> Nil /\ x <> Sym COMMA /\ x <> Sym COMMA_AT
  | TElem _ t | TSplice _ t => literal t
  | TCons a t => literal a /\ literal t
  end.

(** evaluation with a state of any kind; [None] is an error *)
Section Eval.
  Context {S : Type}.
  Definition M (A : Type) := S -> option (A * S).
  Definition ret {A} (x : A) : M A := fun s => Some (x, s).
  Definition bnd {A B} (m : M A) (k : A -> M B) : M B := fun s => match m s with Some (x, s') => k x s' | None => None end.
  Definition lift {A} (o : option A) : M A := fun s => match o with Some x => Some (x, s) | None => None end.

  Variable eval : datum -> M datum.

  (** the value of a template: forms are evaluated once each, from left to right *)
  Fixpoint fill (t : tmpl) : M datum :=
    match t with
    | TNil => ret Nil
    | TAtom x => ret x
    | TComma f => eval f
    | TElem f t => bnd (eval f) (fun x => bnd (fill t) (fun y => ret (Cons x y)))
    | TSplice f t => bnd (eval f) (fun x => bnd (fill t) (fun y => lift (append2 x y)))
    | TCons a t => bnd (fill a) (fun x => bnd (fill t) (fun y => ret (Cons x y)))
    end.

  (** what is assumed of eval: nil, quote and calls of the three list functions *)
  Record list_eval : Prop := {
    ev_nil : forall s, eval Nil s = Some (Nil, s);
    ev_quote : forall x s, eval (list2 (Sym QUOTE) x) s = Some (x, s);
    ev_list : forall f s, eval (list2 (Sym LIST) f) s = bnd (eval f) (fun x => ret (list1 x)) s;
    ev_cons : forall f g s, eval (list3 (Sym CONS) f g) s =
                bnd (eval f) (fun x => bnd (eval g) (fun y => ret (Cons x y))) s;
    ev_append : forall f g s, eval (list3 (Sym APPEND) f g) s =
                bnd (eval f) (fun x => bnd (eval g) (fun y => lift (append2 x y))) s }.

  Lemma bnd_ext {A B} (m m' : M A) (k k' : A -> M B) s :
    (forall s, m s = m' s) -> (forall x s, k x s = k' x s) -> bnd m k s = bnd m' k' s.
  Proof. intros Hm Hk. unfold bnd. rewrite Hm. destruct (m' s) as [[x s']|]; auto. Qed.

  Hypothesis EV : list_eval.

  Lemma eval_conscons f g s :
    eval (conscons f g) s = bnd (eval f) (fun x => bnd (eval g) (fun y => ret (Cons x y))) s.
  Proof.
    destruct g as [| | | |a d]; try exact (ev_cons EV _ _ _).
    cbn [conscons]. rewrite (ev_list EV). apply bnd_ext; auto.
    intros x s'. unfold bnd. rewrite (ev_nil EV). reflexivity.
  Qed.

  (** (\, ...) and (\,@ ...) are not the text of a template that is a list of other things *)
  Lemma text_car t : literal t -> atom (text t) = false -> is_sym COMMA (car (text t)) = true ->
    exists f, t = TComma f.
  Proof.
    destruct t as [|x|f|f t|f t|a t]; cbn [text literal atom car]; try discriminate.
    - intros (A & _) B. rewrite A in B. discriminate.
    - eauto.
    - intros [La _] _. destruct a; cbn [text is_sym]; try discriminate. cbn [literal] in La.
      destruct x; cbn [is_sym]; try discriminate. intros E. apply Nat.eqb_eq in E. subst. tauto.
  Qed.
  Lemma text_car_at t : literal t -> is_sym COMMA_AT (car (text t)) = false.
  Proof.
    destruct t as [|x|f|f t|f t|a t]; cbn [text literal car]; auto.
    - intros (A & _). destruct x; try reflexivity. discriminate.
    - intros [La _]. destruct a; cbn [text is_sym]; auto. cbn [literal] in La.
      destruct x; cbn [is_sym]; auto. destruct (Nat.eqb_spec s COMMA_AT); auto. subst; tauto.
  Qed.

  Lemma conv_bq_fill t : literal t -> forall s, eval (conv_bq (text t)) s = fill t s.
  Proof.
    induction t as [|x|f|f t IH|f t IH|a IHa t IH]; intros L s; cbn [text fill].
    - exact (ev_nil EV s).
    - cbn [literal] in L. destruct L as (A & N & _).
      destruct x; try exact (ev_quote EV _ _); [contradiction|discriminate].
    - reflexivity.
    - cbn [conv_bq read_comma atom car cdr is_sym]. rewrite Nat.eqb_refl. rewrite eval_conscons.
      apply bnd_ext; auto. intros x s1. apply bnd_ext; auto.
    - cbn [conv_bq read_comma atom car cdr is_sym]. change (COMMA_AT =? COMMA) with false. cbv iota.
      rewrite Nat.eqb_refl. rewrite (ev_append EV).
      apply bnd_ext; auto. intros x s1. apply bnd_ext; auto.
    - cbn [literal] in L. destruct L as [La Lt]. specialize (IHa La). specialize (IH Lt).
      assert (AT := text_car_at a La). cbn [conv_bq].
      destruct (atom (text a)) eqn:A.
      + assert (NC : is_sym COMMA (text a) = false).
        { destruct a; cbn [text is_sym]; auto. cbn [literal] in La. destruct x; cbn [is_sym]; auto.
          destruct (Nat.eqb_spec s0 COMMA); auto. subst; tauto. }
        rewrite NC. rewrite eval_conscons. apply bnd_ext; [|intros; apply bnd_ext; auto].
        intros s1. rewrite (ev_quote EV). rewrite <- IHa.
        destruct (text a); try discriminate; cbn [conv_bq]; rewrite ?(ev_quote EV), ?(ev_nil EV); reflexivity.
      + destruct (is_sym COMMA (car (text a))) eqn:C.
        * destruct (text_car a La A C) as [f ->]. cbn [text read_comma cdr]. rewrite eval_conscons.
          apply bnd_ext; auto. intros; apply bnd_ext; auto.
        * rewrite AT. rewrite eval_conscons. apply bnd_ext; auto. intros; apply bnd_ext; auto.
  Qed.
End Eval.

(** Every list datum without the marker symbols and every use of read-comma inside lists is the text of a template. *)
Inductive template_text : datum -> Prop :=
| tt_nil : template_text Nil
| tt_atom x : atom x = true -> x <> Sym COMMA -> x <> Sym COMMA_AT -> template_text x
| tt_comma f : template_text (read_comma false f)
| tt_splice f d : template_text d -> template_text (Cons (read_comma true f) d)
| tt_cons a d : template_text a -> template_text d -> template_text (Cons a d).

Lemma template_text_tmpl x : template_text x -> exists t, literal t /\ text t = x.
Proof.
  intros T. induction T as [|x A N1 N2|f|f d T [t [L E]]|a d Ta [ta [La Ea]] Td [td [Ld Ed]]].
  - exists TNil; split; [exact I|reflexivity].
  - destruct x as [|s|z|l|y z]; try discriminate.
    + exists TNil; split; [exact I|reflexivity].
    + exists (TAtom (Sym s)); split; [cbn; repeat split; auto; discriminate|reflexivity].
    + exists (TAtom (Num z)); split; [cbn; repeat split; auto; discriminate|reflexivity].
    + exists (TAtom (Vec l)); split; [cbn; repeat split; auto; discriminate|reflexivity].
  - exists (TComma f); split; [exact I|reflexivity].
  - exists (TSplice f t); split; [exact L|cbn [text]; congruence].
  - exists (TCons ta td); split; [split; assumption|cbn [text]; congruence].
Qed.
