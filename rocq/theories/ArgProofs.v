(** Proofs for C106. *)
From Coq Require Import ZArith Bool String List Lia.
From Verif Require Import ArgModel ArgSpec.
Import ListNotations.
Open Scope Z_scope.

(** ** one argument *)
Lemma fits_test a v : (negb match check a with Some f => f v | None => true end = false /\
  match choices a with [] => false | c => negb (existsb (fun x => if val_eq_dec v x then true else false) c) end = false) <-> fits a v.
Proof.
  unfold fits. rewrite negb_false_iff. destruct (choices a) as [|c cs].
  - destruct (check a) as [f|]; split; intros H; repeat split; auto; try (intros g G; injection G as <-; apply H); try (intros g G; discriminate). apply H. reflexivity.
  - rewrite negb_false_iff, existsb_exists.
    assert (Q : (exists x, In x (c :: cs) /\ (if val_eq_dec v x then true else false) = true) <-> In v (c :: cs)).
    { split; [intros (x & I & T); destruct (val_eq_dec v x) as [->|]; [exact I | discriminate] | intros I; exists v; split; [exact I|]; destruct (val_eq_dec v v); congruence]. }
    rewrite Q. destruct (check a) as [f|]; split; intros [H K]; (split; [|auto]); auto; try (intros g G; injection G as <-; exact H); try (intros g G; discriminate).
    all: destruct K as [K | K]; [discriminate | exact K].
Qed.
Lemma store_test a v a' : (if negb match check a with Some f => f v | None => true end then None
  else if match choices a with [] => false | c => negb (existsb (fun x => if val_eq_dec v x then true else false) c) end then None else Some (set_value a v)) = Some a' <->
  fits a v /\ a' = set_value a v.
Proof.
  rewrite <- fits_test. destruct (negb match check a with Some f => f v | None => true end); [split; [discriminate | intros [[H _] _]; discriminate]|].
  match goal with |- (if ?b then _ else _) = _ <-> _ => destruct b end; [split; [discriminate | intros [[_ H] _]; discriminate]|].
  split; [intros H; injection H as <-; auto | intros [_ ->]; reflexivity].
Qed.
Lemma store_plain a v a' : read a = None \/ functionp (act a) = true -> store a v = Some a' <-> fits a v /\ a' = set_value a v.
Proof. intros H. rewrite <- store_test. unfold store. destruct (read a); [|reflexivity]. destruct H as [H | ->]; [discriminate|]. reflexivity. Qed.
Lemma store_text a s a' : functionp (act a) = false ->
  store a (VStr s) = Some a' <-> exists v, match read a with Some r => r s = Some v | None => v = VStr s end /\ fits a v /\ a' = set_value a v.
Proof.
  intros F. unfold store. rewrite F. destruct (read a) as [r|].
  - destruct (r s) as [v|]; cbn [bind]; [|split; [discriminate | intros (v & H & _); discriminate]]. rewrite store_test.
    split; [intros H; exists v; auto | intros (v' & H & K); injection H as <-; exact K].
  - cbn [bind]. rewrite store_test. split; [intros H; exists (VStr s); auto | intros (v' & -> & K); exact K].
Qed.
Definition replacing (x : action) : Prop := match x with Count | Append => False | _ => True end.
Lemma run1_replacing a o a' : replacing (act a) -> sensible a -> run1 a o = Some a' <-> exists v, gives a o v /\ fits a v /\ a' = set_value a v.
Proof.
  intros R Se. unfold run1, gives, sensible, replacing in *. destruct (act a) as [ | | | | | |r|f] eqn:A; try contradiction; destruct o as [s|].
  all: try (split; [discriminate | intros (v & [] & _)]).
  - apply store_text. rewrite A. reflexivity.
  - rewrite store_plain by auto. split; [intros H; exists VT; auto | intros (v & -> & K); exact K].
  - rewrite store_plain by auto. split; [intros H; exists VNil; auto | intros (v & -> & K); exact K].
  - rewrite store_plain by auto. split; [intros H; exists (const a); auto | intros (v & -> & K); exact K].
  - destruct r as [r|]; cbn [bind]; [|split; [discriminate | intros (v & H & _); discriminate]].
    rewrite store_plain by (right; rewrite A; reflexivity). split; [intros H; exists r; auto | intros (v & H & K); injection H as <-; exact K].
  - assert (Q : forall x, bind (f x) (store a) = Some a' <-> exists v, f x = Some v /\ fits a v /\ a' = set_value a v).
    { intros x. destruct (f x) as [v|]; cbn [bind]; [|split; [discriminate | intros (v & H & _); discriminate]].
      rewrite store_plain by (right; rewrite A; reflexivity). split; [intros H; exists v; auto | intros (v' & H & K); injection H as <-; exact K]. }
    destruct (read a) as [r|].
    + destruct (r s) as [x|]; cbn [bind]; [|split; [discriminate | intros (v & (x & H & _) & _); discriminate]].
      rewrite Q. split; [intros (v & H & K); exists v; split; [exists x; auto | exact K] | intros (v & (x' & H & G) & K); injection H as <-; exists v; auto].
    + cbn [bind]. rewrite Q. split; [intros (v & H & K); exists v; split; [exists (VStr s); auto | exact K] | intros (v & (x' & -> & G) & K); exists v; auto].
Qed.

(** ** the occurrences of one argument *)
Fixpoint run (a : argument) (occ : list (option string)) : option argument := match occ with [] => Some a | o :: r => bind (run1 a o) (fun a => run a r) end.
Lemma set_same a : set_value a (value a) = a. Proof. destruct a. reflexivity. Qed.
Lemma bind_some {A B} (o : option A) (f : A -> option B) y : bind o f = Some y <-> exists x, o = Some x /\ f x = Some y.
Proof. destruct o as [x|]; cbn [bind]; split; [intros H; exists x; auto | intros (x' & H & K); injection H as <-; exact K | discriminate | intros (x & H & _); discriminate]. Qed.
Lemma last_cons {A} (x : A) l d : last (x :: l) d = last l x.
Proof. revert x d. induction l as [|y l IH]; intros x d; [reflexivity|]. transitivity (last (y :: l) d); [reflexivity|]. transitivity (last l y); [apply IH | symmetry; apply IH]. Qed.
Lemma run_replacing occ : forall a a', replacing (act a) -> sensible a ->
  run a occ = Some a' <-> exists vs, Forall2 (fun o x => gives a o x /\ fits a x) occ vs /\ a' = set_value a (last vs (value a)).
Proof.
  induction occ as [|o occ IH]; intros a a' R Se; cbn [run].
  - split; [intros H; injection H as <-; exists []; split; [constructor | rewrite set_same; reflexivity] | intros (vs & F & ->); inversion F; subst; cbn [last]; rewrite set_same; reflexivity].
  - rewrite bind_some. split.
    + intros (a1 & H & K). apply run1_replacing in H; [|exact R | exact Se]. destruct H as (v & G & Fi & ->). apply IH in K; [|exact R | exact Se]. destruct K as (vs & F & ->).
      exists (v :: vs). split; [constructor; [auto | exact F]|]. rewrite last_cons. reflexivity.
    + intros (vs & F & ->). inversion F as [|? v ? vs' [G Fi] F']; subst. exists (set_value a v). split; [apply run1_replacing; [exact R | exact Se|]; exists v; auto|].
      apply IH; [exact R | exact Se|]. exists vs'. split; [exact F'|]. rewrite last_cons. reflexivity.
Qed.
Lemma run1_count a o a' : act a = Count -> read a = None ->
  run1 a o = Some a' <-> exists n, (value a = VInt n \/ value a = VNil /\ n = 0) /\ o = None /\ fits a (VInt (n + 1)) /\ a' = set_value a (VInt (n + 1)).
Proof.
  intros A Re. unfold run1. rewrite A. destruct o as [s|]; [split; [discriminate | intros (n & _ & H & _); discriminate]|]. rewrite bind_some.
  split.
  - intros (v & O & S). apply store_plain in S; [|auto]. destruct S as [Fi ->]. destruct (value a); try discriminate; injection O as <-; [exists 0 | exists n]; auto.
  - intros (n & V & _ & Fi & ->). exists (VInt (n + 1)). split; [destruct V as [-> | [-> ->]]; reflexivity|]. apply store_plain; auto.
Qed.
Lemma run_count occ : forall a a', act a = Count -> read a = None ->
  run a occ = Some a' <-> (exists v, means a occ v /\ a' = set_value a v).
Proof.
  induction occ as [|o occ IH]; intros a a' A Re; cbn [run].
  - unfold means. rewrite A. split.
    + intros H. injection H as <-. exists (value a). split; [left; auto | rewrite set_same; reflexivity].
    + intros (v & [[_ ->] | (n & _ & _ & _ & N & _)] & ->); [rewrite set_same; reflexivity | destruct N; reflexivity].
  - rewrite bind_some. split.
    + intros (a1 & H & K). apply run1_count in H; [|exact A | exact Re]. destruct H as (n & V & -> & Fi & ->). apply IH in K; [|exact A | exact Re]. destruct K as (v & M & ->).
      exists v. split; [|reflexivity]. unfold means in *. rewrite A in *. cbn [act set_value] in M. rewrite A in M. right. exists n. split; [exact V|].
      destruct M as [[-> ->] | (m & W & Fo & Al & N & ->)].
      * split; [repeat constructor|]. split; [intros i Hi; cbn [length] in Hi; replace i with 1 by lia; exact Fi|]. split; [discriminate|]. cbn [value set_value length]. reflexivity.
      * cbn [value set_value] in W. destruct W as [W | [W _]]; [|discriminate]. injection W as <-. split; [constructor; auto|].
        split; [|split; [discriminate | cbn [length]; f_equal; lia]].
        intros i Hi. cbn [length] in Hi. destruct (Z.eq_dec i 1) as [->|]; [exact Fi|]. specialize (Al (i - 1) ltac:(lia)). replace (n + i) with (n + 1 + (i - 1)) by lia. exact Al.
    + intros (v & M & ->). unfold means in M. rewrite A in M. destruct M as [[X _] | (n & V & Fo & Al & _ & ->)]; [discriminate|].
      inversion Fo as [|? ? O Fo']; subst. cbn [length] in Al. exists (set_value a (VInt (n + 1))). split; [apply run1_count; [exact A | exact Re|]; exists n; repeat split; auto; apply (Al 1); lia|].
      apply IH; [exact A | exact Re|]. exists (VInt (n + Z.of_nat (length (None :: occ)))). split; [|reflexivity]. unfold means. cbn [act set_value]. rewrite A.
      destruct occ as [|o occ]; [left; auto|]. right. exists (n + 1). split; [left; reflexivity|]. split; [exact Fo'|]. split; [|split; [discriminate | cbn [length]; f_equal; lia]].
      intros i Hi. specialize (Al (i + 1) ltac:(lia)). replace (n + 1 + i) with (n + (i + 1)) by lia. exact Al.
Qed.
Lemma append1_list l x : append1 (lisp_list l) x = Some (lisp_list (l ++ [x])).
Proof. induction l as [|y l IH]; cbn [lisp_list append1 app]; [reflexivity|]. rewrite IH. reflexivity. Qed.
Lemma append1_inv v x r : append1 v x = Some r -> exists l, v = lisp_list l /\ r = lisp_list (l ++ [x]).
Proof.
  revert r. induction v; intros r H; cbn [append1] in H; try discriminate.
  - injection H as <-. exists []. auto.
  - apply bind_some in H. destruct H as (d & H & K). injection K as <-. destruct (IHv2 d H) as (l & -> & ->). exists (v1 :: l). auto.
Qed.
Lemma lisp_list_inj l : forall m, lisp_list l = lisp_list m -> l = m.
Proof. induction l as [|x l IH]; intros [|y m] H; try discriminate; [reflexivity|]. injection H as -> H. f_equal. apply IH, H. Qed.
Lemma run1_append a o a' : act a = Append ->
  run1 a o = Some a' <-> exists l x, value a = lisp_list l /\ gives a o x /\ fits a x /\ a' = set_value a (lisp_list (l ++ [x])).
Proof.
  intros A. unfold run1, gives. rewrite A. destruct o as [s|]; [|split; [discriminate | intros (l & x & _ & [] & _)]]. rewrite bind_some. split.
  - intros (a1 & S & K). apply store_text in S; [|rewrite A; reflexivity]. destruct S as (x & G & Fi & ->). apply bind_some in K. destruct K as (r & K & E). injection E as <-.
    apply append1_inv in K. destruct K as (l & V & ->). exists l, x. auto.
  - intros (l & x & V & G & Fi & ->). exists (set_value a x). split; [apply store_text; [rewrite A; reflexivity|]; exists x; auto|].
    cbn [value set_value]. rewrite V, append1_list. reflexivity.
Qed.
Lemma run_append occ : forall a a', act a = Append -> run a occ = Some a' <-> (exists v, means a occ v /\ a' = set_value a v).
Proof.
  induction occ as [|o occ IH]; intros a a' A; cbn [run].
  - unfold means. rewrite A. split.
    + intros H. injection H as <-. exists (value a). split; [left; auto | rewrite set_same; reflexivity].
    + intros (v & [[_ ->] | (l & vs & _ & _ & N & _)] & ->); [rewrite set_same; reflexivity | destruct N; reflexivity].
  - rewrite bind_some. split.
    + intros (a1 & H & K). apply run1_append in H; [|exact A]. destruct H as (l & x & V & G & Fi & ->). apply IH in K; [|exact A]. destruct K as (v & M & ->).
      exists v. split; [|reflexivity]. unfold means in *. rewrite A. cbn [act set_value] in M. rewrite A in M. right.
      destruct M as [[-> ->] | (l' & vs & W & F & N & ->)].
      * exists l, [x]. split; [exact V|]. split; [constructor; [auto | constructor]|]. split; [discriminate | reflexivity].
      * cbn [value set_value] in W. apply lisp_list_inj in W. subst l'. exists l, (x :: vs). split; [exact V|]. split; [constructor; [auto | exact F]|]. split; [discriminate|].
        rewrite <- app_assoc. reflexivity.
    + intros (v & M & ->). unfold means in M. rewrite A in M. destruct M as [[X _] | (l & vs & V & F & _ & ->)]; [discriminate|].
      inversion F as [|? x ? vs' [G Fi] F']; subst. exists (set_value a (lisp_list (l ++ [x]))). split; [apply run1_append; [exact A|]; exists l, x; auto|].
      apply IH; [exact A|]. exists (lisp_list (l ++ x :: vs')). split; [|reflexivity]. unfold means. cbn [act set_value]. rewrite A.
      destruct occ as [|o' occ]; [left; inversion F'; subst; auto|]. right. exists (l ++ [x]), vs'. split; [reflexivity|]. split; [exact F'|]. split; [discriminate|].
      rewrite <- app_assoc. reflexivity.
Qed.
Lemma run_means a occ a' : sensible a -> run a occ = Some a' <-> exists v, means a occ v /\ a' = set_value a v.
Proof.
  intros Se. destruct (act a) eqn:A.
  5: apply run_count; [exact A | unfold sensible in Se; rewrite A in Se; exact Se].
  5: apply run_append; exact A.
  all: rewrite run_replacing by (try exact Se; rewrite A; exact I); unfold means; rewrite A.
  all: split; [intros (vs & F & ->); eexists; split; [exists vs; split; [exact F | reflexivity] | reflexivity] | intros (v & (vs & F & ->) & ->); exists vs; auto].
Qed.

(** ** the loop *)
Definition named (fl : list (string * string)) (n : string) (given : list string) : list (option string) :=
  flat_map (fun s => match assoc (fst (split_flag s)) fl with Some m => if string_dec m n then [snd (split_flag s)] else [] | None => [] end) given.
Lemma assoc_replace_same k a l : assoc k l <> None -> assoc k (replace k a l) = Some a.
Proof.
  induction l as [|[x v] l IH]; intros H; [destruct H; reflexivity|]. cbn [assoc replace] in *. destruct (String.eqb k x) eqn:E; cbn [assoc]; rewrite E; [reflexivity | apply IH, H].
Qed.
Lemma assoc_replace_other k a l n : n <> k -> assoc n (replace k a l) = assoc n l.
Proof.
  intros N. induction l as [|[x v] l IH]; [reflexivity|]. cbn [assoc replace]. destruct (String.eqb k x) eqn:E; cbn [assoc].
  - apply String.eqb_eq in E. subst x. destruct (String.eqb n k) eqn:E; [apply String.eqb_eq in E; contradiction | reflexivity].
  - rewrite IH. reflexivity.
Qed.
Lemma delete_in k l x : NoDup l -> In x (delete_name k l) <-> In x l /\ x <> k.
Proof.
  induction 1 as [|y l N D IH]; [cbn; tauto|]. cbn [delete_name]. destruct (String.eqb k y) eqn:E.
  - apply String.eqb_eq in E. subst y. cbn [In]. split; [intros H; split; [auto | intros ->; contradiction] | intros [[<- | H] K]; [contradiction | exact H]].
  - apply String.eqb_neq in E. cbn [In]. rewrite IH. intuition congruence.
Qed.
Lemma delete_nodup k l : NoDup l -> NoDup (delete_name k l).
Proof.
  induction 1 as [|y l N D IH]; [constructor|]. cbn [delete_name]. destruct (String.eqb k y); [exact D|]. constructor; [|exact IH]. rewrite delete_in by exact D. tauto.
Qed.
Lemma loop_runs fl given : forall pl w pl' w', parse_loop fl given pl w = Some (pl', w') ->
  (forall s, In s given -> exists n, assoc (fst (split_flag s)) fl = Some n) /\
  (forall n a, assoc n pl = Some a -> exists a', run a (named fl n given) = Some a' /\ assoc n pl' = Some a') /\
  (NoDup w -> forall x, In x w' <-> In x w /\ named fl x given = []).
Proof.
  induction given as [|s given IH]; intros pl w pl' w' H; cbn [parse_loop] in H.
  - injection H as <- <-. split; [intros s []|]. split; [intros n a A; exists a; auto | intros _ x; cbn; tauto].
  - destruct (split_flag s) as [f v] eqn:Sp. destruct (assoc f fl) as [n|] eqn:An; [|discriminate]. destruct (assoc n pl) as [a|] eqn:Aa; [|discriminate].
    apply bind_some in H. destruct H as (a1 & R & H). destruct (IH _ _ _ _ H) as (K1 & K2 & K3). split; [|split].
    + intros t [<- | T]; [rewrite Sp; exists n; exact An | apply K1, T].
    + intros m b Ab. unfold named. cbn [flat_map]. rewrite Sp. cbn [fst snd]. rewrite An. destruct (string_dec n m) as [-> | N]; cbn [app].
      * assert (b = a) by congruence. subst b. cbn [run]. rewrite R. cbn [bind]. apply (K2 m a1). apply assoc_replace_same. congruence.
      * apply (K2 m b). rewrite assoc_replace_other by congruence. exact Ab.
    + intros D x. rewrite (K3 (delete_nodup n w D)), (delete_in n w x D). unfold named. cbn [flat_map]. rewrite Sp. cbn [fst snd]. rewrite An.
      destruct (string_dec n x) as [-> | N]; cbn [app]; [split; [intros [[_ C] _]; contradiction | intros [_ C]; discriminate]|]. intuition congruence.
Qed.
Lemma loop_ends fl given : forall pl w, (forall s, In s given -> exists n, assoc (fst (split_flag s)) fl = Some n /\ assoc n pl <> None) ->
  (forall n a, assoc n pl = Some a -> run a (named fl n given) <> None) -> parse_loop fl given pl w <> None.
Proof.
  induction given as [|s given IH]; intros pl w H K; cbn [parse_loop]; [discriminate|]. destruct (H s (or_introl eq_refl)) as (n & An & Aa).
  destruct (split_flag s) as [f v] eqn:Sp. cbn [fst] in An. rewrite An. destruct (assoc n pl) as [a|] eqn:E; [|contradiction].
  pose proof (K n a E) as R. unfold named in R. cbn [flat_map] in R. rewrite Sp in R. cbn [fst snd] in R. rewrite An in R. destruct (string_dec n n) as [_|]; [|contradiction]. cbn [app run] in R.
  destruct (run1 a v) as [a1|]; cbn [bind] in *; [|contradiction]. apply IH.
  - intros t T. destruct (H t (or_intror T)) as (m & Am & Ab). exists m. split; [exact Am|]. destruct (string_dec m n) as [-> | N]; [rewrite assoc_replace_same by congruence; discriminate | rewrite assoc_replace_other by exact N; exact Ab].
  - intros m b Ab. destruct (string_dec m n) as [-> | N].
    + rewrite assoc_replace_same in Ab by congruence. injection Ab as <-. exact R.
    + rewrite assoc_replace_other in Ab by exact N. specialize (K m b Ab). unfold named in K. cbn [flat_map] in K. rewrite Sp in K. cbn [fst snd] in K. rewrite An in K.
      destruct (string_dec n m); [congruence|]. exact K.
Qed.

(** ** declarations *)
Record declared (p : parser) (ds : list decl) : Prop := {
  d_args : forall d, In d ds -> exists n, decl_name d = Some n /\ assoc n (plist p) = Some (arg d) /\ forall f, assoc f (flaglst p) = Some n <-> In f (flags d);
  d_flags : forall f n, assoc f (flaglst p) = Some n -> assoc n (plist p) <> None;
  d_only : forall n a, assoc n (plist p) = Some a -> exists d, In d ds /\ decl_name d = Some n /\ arg d = a;
  d_nodup : NoDup (map fst (plist p)) }.
Lemma push_flags_ok name fs : forall l l', push_flags name fs l = Some l' ->
  (forall f, In f fs -> assoc f l = None) /\ forall f n, assoc f l' = Some n <-> (In f fs /\ n = name) \/ (~ In f fs /\ assoc f l = Some n).
Proof.
  induction fs as [|g fs IH]; intros l l' H; cbn [push_flags] in H.
  - injection H as <-. split; [intros f []|]. intros f n. cbn [In]. tauto.
  - destruct (assoc g l) eqn:G; [discriminate|]. destruct (IH _ _ H) as [K1 K2].
    assert (Ng : ~ In g fs) by (intros C; specialize (K1 g C); cbn [assoc] in K1; rewrite String.eqb_refl in K1; discriminate). split.
    + intros f [<- | F]; [exact G|]. specialize (K1 f F). cbn [assoc] in K1. destruct (String.eqb f g); [discriminate | exact K1].
    + intros f n. rewrite K2. cbn [In assoc]. destruct (String.eqb f g) eqn:E.
      * apply String.eqb_eq in E. subst g. intuition congruence.
      * apply String.eqb_neq in E. intuition congruence.
Qed.
Lemma assoc_none {A} k (l : list (string * A)) : assoc k l = None -> ~ In k (map fst l).
Proof.
  induction l as [|[x v] l IH]; intros H; [intros []|]. cbn [assoc map fst In] in *. destruct (String.eqb k x) eqn:E; [discriminate|]. apply String.eqb_neq in E. intros [C | C]; [congruence | exact (IH H C)].
Qed.
Lemma assoc_in {A} k (l : list (string * A)) v : NoDup (map fst l) -> In (k, v) l <-> assoc k l = Some v.
Proof.
  induction l as [|[x w] l IH]; intros N; [cbn; split; [intros [] | discriminate]|]. cbn [map fst] in N. inversion N as [|? ? Nx N']; subst. cbn [assoc In]. destruct (String.eqb k x) eqn:E.
  - apply String.eqb_eq in E. subst x. split; [intros [H | H]; [congruence|]; destruct Nx; apply (in_map fst) in H; exact H | intros H; left; congruence].
  - apply String.eqb_neq in E. rewrite <- (IH N'). split; [intros [H | H]; [congruence | exact H] | auto].
Qed.
Lemma add_declared p ds d p' : declared p ds -> add_argument p d = Some p' -> declared p' (d :: ds).
Proof.
  intros [I1 I2 I3 I4] H. unfold add_argument in H. apply bind_some in H. destruct H as (name & Dn & H). destruct (negb _); [discriminate|].
  destruct (assoc name (plist p)) eqn:Fr; [discriminate|]. apply bind_some in H. destruct H as (l & Pu & H). injection H as <-. destruct (push_flags_ok _ _ _ _ Pu) as [P1 P2].
  split; cbn [plist flaglst].
  - intros d' [<- | D].
    + exists name. split; [exact Dn|]. cbn [assoc]. rewrite String.eqb_refl. split; [reflexivity|]. intros f. rewrite P2. split; [intros [[F _] | [_ C]]; [exact F | destruct (I2 f name C Fr)] | auto].
    + destruct (I1 d' D) as (n & Dn' & A & Fl). assert (n <> name) by congruence. exists n. split; [exact Dn'|]. cbn [assoc]. destruct (String.eqb n name) eqn:E; [apply String.eqb_eq in E; contradiction|].
      split; [exact A|]. intros f. rewrite P2, <- Fl. split; [intros [[_ C] | [_ C]]; [contradiction | exact C]|]. intros C. right. split; [|exact C]. intros F. specialize (P1 f F). congruence.
  - intros f n. rewrite P2. cbn [assoc]. destruct (String.eqb n name) eqn:E; [discriminate|]. apply String.eqb_neq in E. intros [[_ C] | [_ C]]; [contradiction | exact (I2 f n C)].
  - intros n a. cbn [assoc]. destruct (String.eqb n name) eqn:E.
    + apply String.eqb_eq in E. subst n. intros H. injection H as <-. exists d. split; [left; reflexivity | auto].
    + intros H. destruct (I3 n a H) as (d' & D & K). exists d'. split; [right; exact D | exact K].
  - cbn [map fst]. constructor; [apply assoc_none, Fr | exact I4].
Qed.
Lemma declare_declared ds : forall p ds0 p', declared p ds0 -> declare p ds = Some p' -> declared p' (rev ds ++ ds0).
Proof.
  induction ds as [|d ds IH]; intros p ds0 p' D H; cbn [declare] in H; [injection H as <-; exact D|]. apply bind_some in H. destruct H as (p1 & A & H).
  cbn [rev]. rewrite <- app_assoc. cbn [app]. apply (IH p1); [exact (add_declared p ds0 d p1 D A) | exact H].
Qed.
Lemma declared_all ds p : declare no_arguments ds = Some p -> declared p ds.
Proof.
  intros H. assert (D : declared no_arguments []) by (split; cbn; [intros d [] | discriminate | discriminate | constructor]).
  pose proof (declare_declared ds no_arguments [] p D H) as [I1 I2 I3 I4]. rewrite app_nil_r in *. split; [| exact I2 | | exact I4].
  - intros d Hd. apply I1. rewrite <- in_rev. exact Hd.
  - intros n a A. destruct (I3 n a A) as (d & Hd & K). exists d. rewrite <- in_rev in Hd. auto.
Qed.
Lemma named_occurrences p n d argv : (forall f, assoc f (flaglst p) = Some n <-> In f (flags d)) -> named (flaglst p) n (filter flag_name_p argv) = occurrences (flags d) argv.
Proof.
  intros H. induction argv as [|s argv IH]; [reflexivity|]. unfold occurrences. cbn [filter flat_map]. destruct (flag_name_p s); [|exact IH]. unfold named. cbn [flat_map].
  change (flat_map _ (filter flag_name_p argv)) with (named (flaglst p) n (filter flag_name_p argv)). rewrite IH. f_equal. specialize (H (fst (split_flag s))).
  destruct (in_dec string_dec (fst (split_flag s)) (flags d)) as [I | I].
  - apply H in I. rewrite I. destruct (string_dec n n); [reflexivity | contradiction].
  - destruct (assoc (fst (split_flag s)) (flaglst p)) as [m|]; [|reflexivity]. destruct (string_dec m n) as [-> |]; [destruct I; apply H; reflexivity | reflexivity].
Qed.
