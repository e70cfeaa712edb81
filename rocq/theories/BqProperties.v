(** C42: backquote. *)
From Verif Require Import BqProofs.

(** For every evaluator (any state, any forms, errors included) that evaluates nil, quote and calls of list, cons
    and append as usual, evaluating the expansion of a template gives the template with its holes filled, the
    forms being evaluated once each from left to right. *)
Theorem C42_backquote_partial : forall (S : Type) (eval : datum -> @M S datum) (t : tmpl),
  list_eval eval -> literal t -> forall s, eval (conv_bq (text t)) s = fill eval t s.
Proof. intros S eval t EV L s. exact (conv_bq_fill eval EV t L s). Qed.
Print Assumptions C42_backquote_partial.

(** Every list structure the reader can produce, with commas as elements or tails and splices as elements, is the
    text of a template. *)
Theorem C42_templates_cover : forall x, template_text x -> exists t, literal t /\ text t = x.
Proof. exact template_text_tmpl. Qed.
Print Assumptions C42_templates_cover.

(** What the splices of [fill] build: the elements of the spliced list before the rest; an error for an atom. *)
Theorem C42_splice : forall (l : list datum) (x r : datum),
  append2 (fold_right Cons Nil l) r = Some (fold_right Cons r l) /\
  (atom x = true -> x <> Nil -> append2 x r = None).
Proof.
  intros l x r. split.
  - assert (A : append_conses (fold_right Cons Nil l) r = fold_right Cons r l)
      by (induction l as [|a l IH]; [reflexivity|cbn [fold_right append_conses]; rewrite IH; reflexivity]).
    unfold append2. rewrite A. destruct l; reflexivity.
  - intros A N. destruct x; try reflexivity; [contradiction|discriminate].
Qed.
Print Assumptions C42_splice.

Definition L (l : list datum) : datum := fold_right Cons Nil l.
Definition env0 (a : nat) : datum := if a =? 7 then L [Num 10; Num 20] else Num 5.

(** A concrete evaluator: environment lookup, and symbol 9 is a counter that steps at each evaluation. *)
Fixpoint evt (env : nat -> datum) (x : datum) : @M Z datum :=
  match x with
  | Nil => ret Nil
  | Sym a => if a =? 9 then fun s => Some (Num s, (s + 1)%Z) else ret (env a)
  | Num _ | Vec _ => ret x
  | Cons (Sym 2) (Cons y Nil) => ret y
  | Cons (Sym 3) (Cons y Nil) => bnd (evt env y) (fun v => ret (list1 v))
  | Cons (Sym 4) (Cons y (Cons z Nil)) => bnd (evt env y) (fun v => bnd (evt env z) (fun w => ret (Cons v w)))
  | Cons (Sym 5) (Cons y (Cons z Nil)) => bnd (evt env y) (fun v => bnd (evt env z) (fun w => lift (append2 v w)))
  | _ => fun _ => None
  end.
Example C42_hyp : list_eval (evt env0).
Proof. constructor; intros; reflexivity. Qed.
(** `(1 ,n (2 ,@l) ,@l ,n . ,n) with a counter n and l = (10 20) *)
Definition t0 : tmpl :=
  TCons (TAtom (Num 1)) (TElem (Sym 9) (TCons (TCons (TAtom (Num 2)) (TSplice (Sym 7) TNil))
    (TSplice (Sym 7) (TElem (Sym 9) (TComma (Sym 9)))))).
Example C42_ex_lit : literal t0.
Proof. cbn. repeat split; discriminate. Qed.
Example C42_ex : evt env0 (conv_bq (text t0)) 100%Z =
  Some (Cons (Num 1) (Cons (Num 100) (Cons (L [Num 2; Num 10; Num 20])
        (Cons (Num 10) (Cons (Num 20) (Cons (Num 101) (Num 102)))))), 103%Z).
Proof. vm_compute. reflexivity. Qed.

(** The full property fails for templates with vectors: a comma inside a vector is not replaced. *)
Theorem C42_vector_refuted : exists form, forall (S : Type) (eval : datum -> @M S datum), list_eval eval ->
  forall s, eval (conv_bq (Vec [read_comma false form])) s = Some (Vec [read_comma false form], s).
Proof. exists (Num 5). intros S eval EV s. cbn [conv_bq]. exact (ev_quote eval EV _ s). Qed.
Print Assumptions C42_vector_refuted.
