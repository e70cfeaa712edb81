(** What the compiler of [CompModel] does to its own state: it leaves every slot but the label counter as it was, and the stack one
    cell deeper.  Used by [CompProofs]. *)
From Verif Require Import CompModel.
Local Arguments app : simpl never.

(** *** States *)

Definition pending (c : cst) : nat := match push c with Some _ => 1 | None => 0 end.
Definition depth (c : cst) : nat := count c + pending c.
Definition pc (c : cst) (p : option cexpr) (n : nat) : cst :=
  mkCst p n (lab c) (ids c) (scope c) (blocks c) (tags c) (unwinds c) (frames c).
Definition flat (c : cst) : cst := pc c None (depth c).
Definition flush (c : cst) : list stmt := match push c with Some e => [SLocal (count c) e] | None => [] end.
Definition topexpr (c : cst) : cexpr := match push c with Some e => e | None => CLocal (count c - 1) end.
Definition popped (c : cst) : cst := pc c None (depth c - 1).

Lemma bind_inv : forall A B (m : M A) (k : A -> M B) c b c2 o, bind m k c = Some (b, c2, o) ->
  exists a c1 o1 o2, m c = Some (a, c1, o1) /\ k a c1 = Some (b, c2, o2) /\ o = o1 ++ o2.
Proof.
  intros A B m k c b c2 o H. unfold bind in H. destruct (m c) as [[[a c1] o1]|] eqn:E; [|discriminate].
  destruct (k a c1) as [[[b' c2'] o2]|] eqn:F; [|discriminate]. injection H as <- <- <-. exists a, c1, o1, o2. auto.
Qed.

Ltac binv H := let a := fresh "a" in let c1 := fresh "cs" in let o1 := fresh "o" in let o2 := fresh "o" in
  let H1 := fresh "B" in let H2 := fresh "B" in
  apply bind_inv in H; destruct H as (a & c1 & o1 & o2 & H1 & H2 & ->).

Tactic Notation "step" ident(H) ident(a) ident(c1) ident(o1) ident(B) :=
  let x := fresh "H" in let o2 := fresh "o" in
  apply bind_inv in H; destruct H as (a & c1 & o1 & o2 & B & x & ->); rename x into H.

Lemma get_inv : forall c a c' o, get c = Some (a, c', o) -> a = c /\ c' = c /\ o = [].
Proof. intros c a c' o H; unfold get in H; injection H as <- <- <-; auto. Qed.
Lemma ret_inv : forall A (x : A) c a c' o, ret x c = Some (a, c', o) -> a = x /\ c' = c /\ o = [].
Proof. intros A x c a c' o H; unfold ret in H; injection H as <- <- <-; auto. Qed.
Lemma emit_inv : forall s c a c' o, emit s c = Some (a, c', o) -> c' = c /\ o = [s].
Proof. intros s c a c' o H; unfold emit in H; injection H as <- <- <-; auto. Qed.

Lemma clearpush_eq : forall c, clearpush c = Some (tt, flat c, flush c).
Proof. intros [[p|] n lb i s b t u f]; unfold flat, depth, pending, pc; cbn; rewrite ?Nat.add_0_r, ?Nat.add_1_r; reflexivity. Qed.
Lemma push_eq : forall e c, push_ e c = Some (tt, pc c (Some e) (depth c), flush c).
Proof. intros e c; unfold push_, bind; rewrite clearpush_eq; cbn; rewrite app_nil_r; reflexivity. Qed.
Lemma pop_inv : forall c e c' o, pop c = Some (e, c', o) -> 0 < depth c /\ e = topexpr c /\ c' = popped c /\ o = [].
Proof.
  intros [[p|] n lb i s b t u f] e c' o H; unfold popped, depth, pending, pc, topexpr; cbn in *.
  - injection H as <- <- <-. rewrite Nat.add_sub. split; [lia|auto].
  - destruct n as [|n]; [discriminate|]. injection H as <- <- <-. split; [lia|].
    rewrite Nat.add_0_r. cbn [Nat.sub]. rewrite Nat.sub_0_r. auto.
Qed.

Definition store_code (dest : cexpr) (c : cst) : list stmt :=
  if match push c with Some e => same e dest | None => false end then [] else [assignment dest (topexpr c)].
Lemma store_inv : forall d c a c' o, store d c = Some (a, c', o) -> 0 < depth c /\ c' = popped c /\ o = store_code d c.
Proof.
  intros d c a c' o H. unfold store in H. binv H. apply get_inv in B as (-> & -> & ->). unfold store_code.
  destruct (match push c with Some e => same e d | None => false end) eqn:E.
  - destruct (push c) as [e|] eqn:P; [|discriminate]. unfold set_push in B0. injection B0 as <- <- <-.
    unfold popped, depth, pending. rewrite P, Nat.add_sub. split; [lia|auto].
  - binv B0. apply pop_inv in B as (L & -> & -> & ->). apply emit_inv in B1 as (-> & ->). auto.
Qed.

Lemma discard1_inv : forall c a c' o, discard 1 c = Some (a, c', o) -> c' = popped c /\ o = [].
Proof.
  intros [[p|] n lb i s b t u f] a c' o H; cbn in H; injection H as <- <- <-; unfold popped, depth, pending, pc; cbn;
    rewrite ?Nat.add_0_r, ?Nat.sub_0_r, ?Nat.add_sub; auto.
Qed.
Lemma label_inv : forall l c a c' o, label l c = Some (a, c', o) -> c' = flat c /\ o = flush c ++ [SLabel l].
Proof. intros l c a c' o H; unfold label, bind in H; rewrite clearpush_eq in H; cbn in H; injection H as <- <- <-; auto. Qed.
Lemma jump_inv : forall l c a c' o, jump l c = Some (a, c', o) -> c' = flat c /\ o = flush c ++ [SGoto l].
Proof. intros l c a c' o H; unfold jump, bind in H; rewrite clearpush_eq in H; cbn in H; injection H as <- <- <-; auto. Qed.
Lemma push_inv : forall e c a c' o, push_ e c = Some (a, c', o) -> c' = pc c (Some e) (depth c) /\ o = flush c.
Proof. intros e c a c' o H; rewrite push_eq in H; injection H as <- <- <-; auto. Qed.
Definition dup_expr (c : cst) : cexpr := match push c with Some CW => CW | _ => CLocal (depth c - 1) end.
Lemma dupe_inv : forall c a c' o, dupe c = Some (a, c', o) -> c' = pc c (Some (dup_expr c)) (depth c) /\ o = flush c.
Proof.
  intros c a c' o H. unfold dupe in H. binv H. apply get_inv in B as (-> & -> & ->). unfold dup_expr.
  destruct (push c) as [e|] eqn:P; [destruct e|].
  1: apply push_inv in B0; exact B0.
  all: binv B0; rewrite clearpush_eq in B; injection B as <- <- <-; binv B1; apply get_inv in B as (-> & -> & ->);
    apply push_inv in B0 as (-> & ->); unfold flush at 2, flat, pc, depth at 1, pending at 1; cbn;
    rewrite Nat.add_0_r, !app_nil_r; auto.
Qed.
Lemma offset_inv : forall c a c' o, offset_from_fp c = Some (a, c', o) -> a = depth c /\ c' = flat c /\ o = flush c.
Proof. intros c a c' o H; unfold offset_from_fp, bind in H; rewrite clearpush_eq in H; cbn in H; injection H as <- <- <-; rewrite app_nil_r; auto. Qed.
Definition with_lab (c : cst) (n : nat) : cst :=
  mkCst (push c) (count c) n (ids c) (scope c) (blocks c) (tags c) (unwinds c) (frames c).
Lemma genlabel_inv : forall c a c' o, genlabel c = Some (a, c', o) -> a = S (lab c) /\ c' = with_lab c (S (lab c)) /\ o = [].
Proof. intros c a c' o H; unfold genlabel in H; injection H as <- <- <-; auto. Qed.
Lemma adjust_inv : forall n c a c' o, adjust n c = Some (a, c', o) -> c' = pc c (push c) (count c - n) /\ o = [].
Proof. intros n c a c' o H; cbn in H; injection H as <- <- <-; auto. Qed.
Lemma pop2_inv : forall c e1 c1 o1 e2 c2 o2, pop c = Some (e1, c1, o1) -> pop c1 = Some (e2, c2, o2) ->
  1 < depth c /\ e1 = topexpr c /\ e2 = CLocal (depth c - 2) /\ c2 = pc c None (depth c - 2) /\ o1 = [] /\ o2 = [].
Proof.
  intros c e1 c1 o1 e2 c2 o2 H1 H2. apply pop_inv in H1 as (L1 & -> & -> & ->). apply pop_inv in H2 as (L2 & -> & -> & ->).
  unfold popped, pc, depth, pending, topexpr in *; cbn in *. rewrite Nat.add_0_r in *.
  split; [lia|]. split; [reflexivity|]. split; [f_equal; lia|]. split; [f_equal; lia|auto].
Qed.

Ltac known := match goal with
  | H : get _ = Some _ |- _ => apply get_inv in H; destruct H as (-> & -> & ->)
  | H : ret _ _ = Some _ |- _ => apply ret_inv in H; destruct H as (-> & -> & ->)
  | H : emit _ _ = Some _ |- _ => apply emit_inv in H; destruct H as (-> & ->)
  | H : label _ _ = Some _ |- _ => apply label_inv in H; destruct H as (-> & ->)
  | H : jump _ _ = Some _ |- _ => apply jump_inv in H; destruct H as (-> & ->)
  | H : push_ _ _ = Some _ |- _ => apply push_inv in H; destruct H as (-> & ->)
  | H : load_const _ _ = Some _ |- _ => apply push_inv in H; destruct H as (-> & ->)
  | H : load_local _ _ = Some _ |- _ => apply push_inv in H; destruct H as (-> & ->)
  | H : load_arg _ _ = Some _ |- _ => apply push_inv in H; destruct H as (-> & ->)
  | H : load_global _ _ = Some _ |- _ => apply push_inv in H; destruct H as (-> & ->)
  | H : dupe _ = Some _ |- _ => apply dupe_inv in H; destruct H as (-> & ->)
  | H : genlabel _ = Some _ |- _ => apply genlabel_inv in H; destruct H as (-> & -> & ->)
  | H : offset_from_fp _ = Some _ |- _ => apply offset_inv in H; destruct H as (-> & -> & ->)
  | H : discard 1 _ = Some _ |- _ => apply discard1_inv in H; destruct H as (-> & ->)
  | H : adjust _ _ = Some _ |- _ => apply adjust_inv in H; destruct H as (-> & ->)
  | H : clearpush _ = Some _ |- _ => rewrite clearpush_eq in H; injection H as <- <- <-
  | H : err _ = Some _ |- _ => discriminate H
  end.

(** *** Labels *)

(** How often a label is set in a text *)
Fixpoint cnt (x : nat) (c : list stmt) : nat :=
  match c with
  | [] => 0
  | SLabel l :: r => (if Nat.eqb l x then 1 else 0) + cnt x r
  | _ :: r => cnt x r
  end.
Lemma cnt_app : forall x a b, cnt x (a ++ b) = cnt x a + cnt x b.
Proof. intros x a b; induction a as [|s a IH]; [reflexivity|]. rewrite <- app_comm_cons. destruct s; cbn [cnt]; lia. Qed.
Lemma cnt_flush : forall x c, cnt x (flush c) = 0.
Proof. intros x c; unfold flush; destruct (push c); reflexivity. Qed.
Lemma cnt_store : forall x d c, cnt x (store_code d c) = 0.
Proof. intros x d c; unfold store_code; destruct (match push c with Some e => same e d | None => false end); [|destruct d]; reflexivity. Qed.
Definition fresh (lo hi : nat) (o : list stmt) : Prop := forall x, cnt x o <= 1 /\ (0 < cnt x o -> lo < x <= hi).

Ltac fresh_tac := let x := fresh "x" in intro x;
  repeat match goal with H : fresh _ _ _ |- _ => specialize (H x) end;
  rewrite ?cnt_app, ?cnt_flush, ?cnt_store in *; cbn [cnt] in *;
  repeat match goal with |- context [Nat.eqb ?a ?b] => destruct (Nat.eqb_spec a b) end; lia.

(** *** Scope *)

Section Static.
Variable special : nat -> bool.
Let comp := comp special.

Definition level (c : cst) : nat := length (ids c) - 1.
Definition lk (is : list frame) (sc x : nat) : option ident := search x (skipn (length is - 1 - sc) is).
Lemma lk_get : forall c x, get_id c x = lk (ids c) (scope c) x. Proof. reflexivity. Qed.

Definition ctx : Type := list (nat * ident).
(** [x] is found as the context says *)
Definition good (is : list frame) (G : ctx) (sc x : nat) : Prop :=
  if special x then lk is sc x = None \/ lk is sc x = Some Special
  else exists i, assq x G = Some i /\ i <> Special /\ lk is sc x = Some i.
Definition agr (c : cst) (G : ctx) (X : list nat) (lf : bool) : Prop :=
  (forall x, In x X -> good (ids c) G (scope c) x) /\ (lf = true \/ forall x, In x X -> good (ids c) G (level c) x).
Definition srel (lf : bool) (c c' : cst) : Prop :=
  ids c' = ids c /\ (scope c' = scope c \/ lf = false /\ scope c' = level c).
Definition okids (is : list frame) : Prop :=
  forall f x i, In f is -> assq x f = Some i -> (i = Special <-> special x = true).

Lemma srel_refl : forall lf c, srel lf c c. Proof. intros; split; auto. Qed.
Lemma srel_trans : forall lf c c1 c2, srel lf c c1 -> srel lf c1 c2 -> srel lf c c2.
Proof.
  intros lf c c1 c2 [I1 S1] [I2 S2]; split; [congruence|]. unfold level in *. rewrite I1 in S2.
  destruct S2 as [E|E]; [rewrite E; exact S1|right; exact E].
Qed.
Lemma srel_weaken : forall lf lf' c c', srel lf' c c' -> (lf = true -> lf' = true) -> srel lf c c'.
Proof.
  intros lf lf' c c' [I1 S1] H; split; [exact I1|]. destruct S1 as [E|[E F]]; [left; exact E|right; split; [|exact F]].
  destruct lf; [rewrite H in E by reflexivity; discriminate|reflexivity].
Qed.
Lemma agr_sub : forall lf lf' c c' G X Y, agr c G X lf -> srel lf c c' -> incl Y X -> (lf = true -> lf' = true) -> agr c' G Y lf'.
Proof.
  intros lf lf' c c' G X Y [A1 A2] [I1 S1] HI HL. unfold agr, level in *. rewrite I1. split.
  - intros x Hx. destruct S1 as [E|[E F]]; [rewrite E; apply A1; auto|]. rewrite F. destruct A2 as [A2|A2]; [congruence|]. apply A2; auto.
  - destruct A2 as [A2|A2]; [left; auto|right; intros x Hx; apply A2; auto].
Qed.

(** What stays *)
Record keep (lf : bool) (c c' : cst) : Prop := mkKeep {
  kp_srel : srel lf c c';
  kp_blocks : blocks c' = blocks c;
  kp_tags : tags c' = tags c;
  kp_unwinds : unwinds c' = unwinds c;
  kp_frames : frames c' = frames c;
  kp_lab : lab c <= lab c'
}.
Lemma keep_refl : forall lf c, keep lf c c. Proof. intros; split; auto. apply srel_refl. Qed.
Lemma keep_pc : forall lf c p n, keep lf c (pc c p n). Proof. intros; split; auto. split; auto. Qed.
Lemma keep_lab : forall lf c n, lab c <= n -> keep lf c (with_lab c n). Proof. intros; split; auto. split; auto. Qed.
Lemma keep_trans : forall lf c c1 c2, keep lf c c1 -> keep lf c1 c2 -> keep lf c c2.
Proof.
  intros lf c c1 c2 H1 H2. destruct H1, H2. split; try congruence; [eapply srel_trans; eauto|lia].
Qed.
Lemma keep_weaken : forall lf lf' c c', keep lf' c c' -> (lf = true -> lf' = true) -> keep lf c c'.
Proof. intros lf lf' c c' H HL; destruct H; split; auto. eapply srel_weaken; eauto. Qed.
Lemma agr_keep : forall lf lf' c c' G X Y, agr c G X lf -> keep lf c c' -> incl Y X -> (lf = true -> lf' = true) -> agr c' G Y lf'.
Proof. intros lf lf' c c' G X Y A K; apply (agr_sub lf lf' c c' G X Y A (kp_srel _ _ _ K)). Qed.
Lemma keep_ids : forall lf c c', keep lf c c' -> ids c' = ids c.
Proof. intros lf c c' K; apply (proj1 (kp_srel _ _ _ K)). Qed.

(** What a form must satisfy, and what it does *)
Definition pre (c : cst) (G : ctx) (X : list nat) (lf : bool) : Prop := agr c G X lf /\ okids (ids c) /\ ids c <> [].
Lemma pre_keep : forall lf lf' c c' G X Y, pre c G X lf -> keep lf c c' -> incl Y X -> (lf = true -> lf' = true) -> pre c' G Y lf'.
Proof.
  intros lf lf' c c' G X Y (A & O & N) K HI HL. split; [eapply agr_keep; eauto|]. rewrite (keep_ids _ _ _ K). auto.
Qed.
Definition does (lf : bool) (c c' : cst) (o : list stmt) : Prop :=
  keep lf c c' /\ fresh (lab c) (lab c') o /\ depth c' = S (depth c).
Definition does0 (lf : bool) (c c' : cst) (o : list stmt) : Prop :=
  keep lf c c' /\ fresh (lab c) (lab c') o /\ push c' = None /\ count c' = depth c.
Definition ct (e : exp) : Prop := forall c c' u o G, plain special e = true -> pre c G (fv e) (letfree e) ->
  comp e c = Some (u, c', o) -> does (letfree e) c c' o.
Definition ctcon (e : exp) : Prop := forall tl nl c c' u o G, plain special e = true -> pre c G (fv e) (letfree e) ->
  evcon comp e tl nl c = Some (u, c', o) -> does0 (letfree e) c c' o.

(** *** Induction on forms *)
Section Ind.
Variable P : exp -> Prop.
Hypothesis HConst : forall v, P (Const v).
Hypothesis HVar : forall x, P (Var x).
Hypothesis HSetq : forall l, Forall (fun p => P (snd p)) l -> P (Setq l).
Hypothesis HProgn : forall l, Forall P l -> P (Progn l).
Hypothesis HIf : forall c a b, P c -> P a -> P b -> P (If c a b).
Hypothesis HCond : forall l, Forall (fun p => P (fst p) /\ Forall P (snd p)) l -> P (Cond l).
Hypothesis HAnd : forall l, Forall P l -> P (And l).
Hypothesis HOr : forall l, Forall P l -> P (Or l).
Hypothesis HWhile : forall c l, P c -> Forall P l -> P (While c l).
Hypothesis HLet : forall b l, Forall (fun p => P (snd p)) b -> Forall P l -> P (Let b l).
Hypothesis HLetStar : forall b l, Forall (fun p => P (snd p)) b -> Forall P l -> P (LetStar b l).
Hypothesis HBlock : forall n l, Forall P l -> P (Block n l).
Hypothesis HReturnFrom : forall n a, P a -> P (ReturnFrom n a).
Hypothesis HTagbody : forall l, Forall (fun i => match i with inl _ => True | inr a => P a end) l -> P (Tagbody l).
Hypothesis HGo : forall t, P (Go t).
Hypothesis HCall : forall f l, Forall P l -> P (Call f l).
Hypothesis HNull : forall a, P a -> P (Null a).
Hypothesis HEq : forall a b, P a -> P b -> P (Eq a b).
Hypothesis HCar : forall a, P a -> P (Car a).
Hypothesis HCdr : forall a, P a -> P (Cdr a).
Hypothesis HIs : forall p a, P a -> P (Is p a).

Fixpoint exp_full (e : exp) : P e :=
  let list_full := fix go (l : list exp) : Forall P l :=
    match l with [] => Forall_nil _ | a :: r => Forall_cons a (exp_full a) (go r) end in
  let bind_full := fix go (l : list (nat * exp)) : Forall (fun p => P (snd p)) l :=
    match l with [] => Forall_nil _ | (x, a) :: r => Forall_cons (P := fun p => P (snd p)) (x, a) (exp_full a) (go r) end in
  match e with
  | Const v => HConst v
  | Var x => HVar x
  | Setq l => HSetq l (bind_full l)
  | Progn l => HProgn l (list_full l)
  | If c a b => HIf c a b (exp_full c) (exp_full a) (exp_full b)
  | Cond l => HCond l ((fix go (l : list (exp * list exp)) : Forall (fun p => P (fst p) /\ Forall P (snd p)) l :=
      match l with
      | [] => Forall_nil _
      | (p, b) :: r => Forall_cons (P := fun p => P (fst p) /\ Forall P (snd p)) (p, b) (conj (exp_full p) (list_full b)) (go r)
      end) l)
  | And l => HAnd l (list_full l)
  | Or l => HOr l (list_full l)
  | While c l => HWhile c l (exp_full c) (list_full l)
  | Let b l => HLet b l (bind_full b) (list_full l)
  | LetStar b l => HLetStar b l (bind_full b) (list_full l)
  | Block n l => HBlock n l (list_full l)
  | ReturnFrom n a => HReturnFrom n a (exp_full a)
  | Tagbody l => HTagbody l ((fix go (l : list (nat + exp)) : Forall (fun i => match i with inl _ => True | inr a => P a end) l :=
      match l with
      | [] => Forall_nil _
      | inl t :: r => Forall_cons (P := fun i => match i with inl _ => True | inr a => P a end) (inl t) I (go r)
      | inr a :: r => Forall_cons (P := fun i => match i with inl _ => True | inr a => P a end) (inr a) (exp_full a) (go r)
      end) l)
  | Go t => HGo t
  | Call f l => HCall f l (list_full l)
  | Null a => HNull a (exp_full a)
  | Eq a b => HEq a b (exp_full a) (exp_full b)
  | Car a => HCar a (exp_full a)
  | Cdr a => HCdr a (exp_full a)
  | Is p a => HIs p a (exp_full a)
  end.
End Ind.

(** *** Lists of forms *)
Lemma depth_flat : forall c, depth (flat c) = depth c. Proof. intro c; unfold flat, depth at 1, pending; cbn; lia. Qed.
Lemma depth_pc : forall c e n, depth (pc c (Some e) n) = S n. Proof. intros; unfold depth, pending; cbn; lia. Qed.
Lemma depth_pc0 : forall c n, depth (pc c None n) = n. Proof. intros; unfold depth, pending; cbn; lia. Qed.
Lemma depth_popped : forall c, depth (popped c) = depth c - 1. Proof. intro c; unfold popped; apply depth_pc0. Qed.
Lemma depth_lab : forall c n, depth (with_lab c n) = depth c. Proof. reflexivity. Qed.

Lemma andb_l : forall a b, a && b = true -> a = true. Proof. intros [] b H; [reflexivity|discriminate]. Qed.
Lemma andb_r : forall a b, a && b = true -> b = true. Proof. intros [] b H; [exact H|discriminate]. Qed.

Lemma progn_cons : forall ev a r, r <> [] -> progn ev (a :: r) = (ev a ;; discard 1 ;; progn ev r).
Proof. intros ev a [|b r] H; [congruence|reflexivity]. Qed.

Lemma progn_ct : forall l, Forall ct l -> forall c c' u o G, forallb (plain special) l = true ->
  pre c G (flat_map fv l) (forallb letfree l) -> progn comp l c = Some (u, c', o) -> does (forallb letfree l) c c' o.
Proof.
  induction l as [|a r IH]; intros HF c c' u o G HP HA H.
  - cbn [progn] in H. known. split; [apply keep_pc|]. split; [fresh_tac|apply depth_pc].
  - inversion HF; subst. cbn [forallb] in *. cbn [flat_map] in HA. destruct r as [|b r].
    + cbn [progn] in H. rewrite andb_true_r in *. cbn [flat_map] in HA. rewrite app_nil_r in HA. eapply H2; eauto.
    + rewrite progn_cons in H by discriminate. set (br := b :: r) in *.
      step H v1 cs o1 B1.
      destruct (H2 _ _ _ _ G (andb_l _ _ HP) (pre_keep _ _ _ _ _ _ _ HA (keep_refl _ _) (incl_appl _ (incl_refl _)) (andb_l _ _)) B1) as (K1 & F1 & D1).
      step H v2 cs2 o2 B2. known.
      assert (K1' : keep (letfree a && forallb letfree br) c cs) by (eapply keep_weaken; [exact K1|apply andb_l]).
      assert (K2 : keep (letfree a && forallb letfree br) c (popped cs)) by (eapply keep_trans; [exact K1'|apply keep_pc]).
      destruct (IH H3 _ _ _ _ G (andb_r _ _ HP) (pre_keep _ _ _ _ _ _ _ HA K2 (incl_appr _ (incl_refl _)) (andb_r _ _)) H) as (K3 & F3 & D3).
      split; [eapply keep_trans; [exact K2|eapply keep_weaken; [exact K3|apply andb_r]]|].
      split; [|rewrite D3, depth_popped; lia].
      pose proof (kp_lab _ _ _ K1); pose proof (kp_lab _ _ _ K3). cbn [lab popped pc] in *. fresh_tac.
Qed.

Ltac inc := let x := fresh "x" in let H := fresh "H" in intros x H; cbn [fv flat_map fst snd] in *; rewrite ?in_app_iff in *; cbn [In] in *; tauto.
Ltac bt := cbn [letfree forallb plain fst snd] in *; rewrite ?andb_true_iff in *; tauto.
Ltac lfi := let H := fresh "H" in intro H; bt.
(** go on with a form *)
Ltac adv Hct HA K B F D :=
  let X := fresh "X" in let lf' := fresh "lf" in let K2 := fresh "K" in let W := fresh "W" in
  match type of K with keep ?LF ?c0 ?c1 =>
  match type of B with _ = Some (_, ?c2, ?o) =>
  assert (X : exists lf', does lf' c1 c2 o /\ (LF = true -> lf' = true)) by
    (eexists; split; [eapply Hct; [bt|eapply pre_keep; [exact HA|exact K|inc|lfi]|exact B]|lfi]);
  destruct X as (lf' & (K2 & F & D) & W);
  let L := fresh "L" in pose proof (kp_lab _ _ _ K2) as L;
  let K3 := fresh "K" in
  assert (K3 : keep LF c0 c2) by (eapply keep_trans; [exact K|eapply keep_weaken; [exact K2|exact W]]);
  clear K K2 W; rename K3 into K
  end end.
Ltac adv0 Hct HA K B F P D :=
  let X := fresh "X" in let lf' := fresh "lf" in let K2 := fresh "K" in let W := fresh "W" in
  match type of K with keep ?LF ?c0 ?c1 =>
  match type of B with _ = Some (_, ?c2, ?o) =>
  assert (X : exists lf', does0 lf' c1 c2 o /\ (LF = true -> lf' = true)) by
    (eexists; split; [eapply Hct; [bt|eapply pre_keep; [exact HA|exact K|inc|lfi]|exact B]|lfi]);
  destruct X as (lf' & (K2 & F & P & D) & W);
  let L := fresh "L" in pose proof (kp_lab _ _ _ K2) as L;
  let K3 := fresh "K" in
  assert (K3 : keep LF c0 c2) by (eapply keep_trans; [exact K|eapply keep_weaken; [exact K2|exact W]]);
  clear K K2 W; rename K3 into K
  end end.
(** go on to a state that differs only in the stack or the label counter *)
Ltac mov K c2 :=
  match type of K with keep ?LF ?c0 ?c1 =>
  let K3 := fresh "K" in
  assert (K3 : keep LF c0 c2) by (eapply keep_trans; [exact K|first [apply keep_pc|apply keep_lab; cbn; lia|apply keep_refl]]);
  clear K; rename K3 into K end.
Ltac fin := cbn [lab popped flat pc with_lab ids count push] in *; fresh_tac.
Hint Rewrite depth_lab depth_pc depth_pc0 depth_popped depth_flat : dp.
Ltac dp := autorewrite with dp in *.

Lemma setq_cons : forall ev x a r, r <> [] -> setq special ev ((x, a) :: r) = (ev a ;; store_var special x ;; setq special ev r).
Proof. intros ev x a [|b r] H; [congruence|reflexivity]. Qed.

(** a variable in scope *)
Lemma variable_inv : forall x c i c' o G, good (ids c) G (scope c) x -> variable special x c = Some (i, c', o) ->
  c' = c /\ o = [] /\ (if special x then i = Special else assq x G = Some i /\ i <> Special).
Proof.
  intros x c i c' o G HG H. unfold variable in H. step H v1 c1 o1 B1. known. unfold good in HG. rewrite lk_get in H.
  destruct (special x) eqn:SX.
  - destruct HG as [E|E]; rewrite E in H; known; auto.
  - destruct HG as (j & E1 & E2 & E3). rewrite E3 in H. known. auto.
Qed.
Definition dest (i : ident) : cexpr := match i with InLocal n => CLocal n | InArg n => CArg n | Special => CW end.
Lemma load_var_inv : forall x c a c' o G, good (ids c) G (scope c) x -> load_var special x c = Some (a, c', o) ->
  exists e, c' = pc c (Some e) (depth c) /\ o = flush c /\
    (if special x then e = CGlobal x else exists i, assq x G = Some i /\ i <> Special /\ e = dest i).
Proof.
  intros x c a c' o G HG H. unfold load_var in H. step H v1 c1 o1 B1. apply variable_inv with (G := G) in B1 as (-> & -> & E); [|exact HG].
  destruct (special x).
  - subst v1. known. exists (CGlobal x). auto.
  - destruct E as (E & N). destruct v1 as [|n|n]; [congruence|..]; known; eexists; (split; [reflexivity|split; [reflexivity|]]);
      eexists; (split; [exact E|split; [discriminate|reflexivity]]).
Qed.
Lemma store_var_inv : forall x c a c' o G, good (ids c) G (scope c) x -> store_var special x c = Some (a, c', o) ->
  0 < depth c /\ c' = popped c /\
    (if special x then o = [SGlobal x (topexpr c)] else exists i, assq x G = Some i /\ i <> Special /\ o = store_code (dest i) c).
Proof.
  intros x c a c' o G HG H. unfold store_var in H. step H v1 c1 o1 B1. apply variable_inv with (G := G) in B1 as (-> & -> & E); [|exact HG].
  destruct (special x).
  - subst v1. unfold store_global in H. step H v2 c2 o2 B2. apply pop_inv in B2 as (D & -> & -> & ->). known. auto.
  - destruct E as (E & N). destruct v1 as [|n|n]; [congruence|..]; apply store_inv in H as (D & -> & ->);
      (split; [exact D|split; [reflexivity|]]); eexists; (split; [exact E|split; [discriminate|reflexivity]]).
Qed.
Lemma good_keep : forall c G X lf c' x, pre c G X lf -> keep lf c c' -> In x X -> good (ids c') G (scope c') x.
Proof.
  intros c G X lf c' x HA K HI. destruct (pre_keep _ lf _ _ _ _ _ HA K (incl_refl _) (fun h => h)) as ((A & _) & _). apply A, HI.
Qed.

Lemma setq_ct : forall l, Forall (fun p => ct (snd p)) l -> ct (Setq l).
Proof.
  unfold ct at 2; cbn [fv letfree plain CompModel.comp]; intros l HF. unfold comp. cbn [CompModel.comp]. fold comp.
  induction HF as [|[x a] r Ha HF IH]; intros c c' u o G HP HA H.
  - cbn [setq] in H. known. split; [apply keep_pc|]. split; [fin|apply depth_pc].
  - cbn [snd] in Ha. pose proof (keep_refl (forallb (fun p : nat * exp => letfree (snd p)) ((x, a) :: r)) c) as K.
    destruct r as [|q r].
    + cbn [setq] in H. step H v1 c1 o1 B1. adv Ha HA K B1 F1 D1.
      assert (Gx : good (ids c1) G (scope c1) x) by (eapply good_keep; [exact HA|exact K|cbn [flat_map fst]; left; reflexivity]).
      step H v2 c2 o2 B2. destruct (variable_inv _ _ _ _ _ _ Gx B2) as (-> & -> & E).
      destruct (special x) eqn:SX; [subst v2|destruct v2; [destruct E; congruence|..]].
      * step H v3 c3 o3 B3. known. mov K (pc c1 (Some (dup_expr c1)) (depth c1)).
        apply store_var_inv with (G := G) in H as (D2 & -> & E); [|exact Gx]. rewrite SX in E. rewrite E.
        mov K (popped (pc c1 (Some (dup_expr c1)) (depth c1))). split; [exact K|]. split; [fin|dp; lia].
      * step H v3 c3 o3 B3. apply store_var_inv with (G := G) in B3 as (D2 & -> & E3); [|exact Gx]. rewrite SX in E3.
        destruct E3 as (i & _ & _ & ->). mov K (popped c1). apply load_var_inv with (G := G) in H as (e & -> & -> & _); [|exact Gx].
        mov K (pc (popped c1) (Some e) (depth (popped c1))). split; [exact K|]. split; [fin|dp; lia].
      * step H v3 c3 o3 B3. apply store_var_inv with (G := G) in B3 as (D2 & -> & E3); [|exact Gx]. rewrite SX in E3.
        destruct E3 as (i & _ & _ & ->). mov K (popped c1). apply load_var_inv with (G := G) in H as (e & -> & -> & _); [|exact Gx].
        mov K (pc (popped c1) (Some e) (depth (popped c1))). split; [exact K|]. split; [fin|dp; lia].
    + rewrite setq_cons in H by discriminate. set (qr := q :: r) in *.
      step H v1 c1 o1 B1. adv Ha HA K B1 F1 D1.
      assert (Gx : good (ids c1) G (scope c1) x) by (eapply good_keep; [exact HA|exact K|cbn [flat_map fst]; left; reflexivity]).
      step H v2 c2 o2 B2. apply store_var_inv with (G := G) in B2 as (D2 & -> & E).
      2: exact Gx.
      assert (C2 : fresh 0 0 o2).
      { intro y. destruct (special x); [rewrite E; cbn; lia|]. destruct E as (i & _ & _ & ->). rewrite cnt_store. lia. }
      mov K (popped c1).
      assert (IH' : forall c c' u o G, forallb (fun p => plain special (snd p)) qr = true ->
        pre c G (flat_map (fun p => fst p :: fv (snd p)) qr) (forallb (fun p => letfree (snd p)) qr) ->
        setq special comp qr c = Some (u, c', o) -> does (forallb (fun p => letfree (snd p)) qr) c c' o) by exact IH.
      adv IH' HA K H F2 D3. split; [exact K|]. split; [fin|dp; lia].
Qed.

Lemma keep_ext : forall lf c cb c2 c', keep lf cb c2 -> ids cb = ids c -> scope cb = scope c -> lab c <= lab cb ->
  ids c' = ids c2 -> scope c' = scope c2 -> lab c2 <= lab c' -> blocks c' = blocks c -> tags c' = tags c ->
  unwinds c' = unwinds c -> frames c' = frames c -> keep lf c c'.
Proof.
  intros lf c cb c2 c' [[HI HS] _ _ _ _ HL] I1 S1 L1 I2 S2 L2 EB ET EU EF. split; auto; [|lia].
  unfold level in *. rewrite I1 in *. split; [congruence|]. unfold level. rewrite S2. rewrite S1 in HS. exact HS.
Qed.
Lemma pre_ext : forall c c' G X lf, pre c G X lf -> ids c' = ids c -> scope c' = scope c -> pre c' G X lf.
Proof. intros c c' G X lf HA I1 S1. unfold pre, agr, level in *. rewrite I1, S1. exact HA. Qed.
Lemma pre_incl : forall c G X lf Y lf', pre c G X lf -> incl Y X -> (lf = true -> lf' = true) -> pre c G Y lf'.
Proof. intros; eapply pre_keep; eauto. apply keep_refl. Qed.

Lemma iter_ct : forall l, Forall ct l -> forall c c' u o G, forallb (plain special) l = true ->
  pre c G (flat_map fv l) (forallb letfree l) -> iter comp l c = Some (u, c', o) ->
  keep (forallb letfree l) c c' /\ fresh (lab c) (lab c') o /\ depth c' = depth c + length l.
Proof.
  induction 1 as [|a r Ha HF IH]; intros c c' u o G HP HA H.
  - cbn [iter] in H. known. split; [apply keep_refl|]. split; [fin|cbn; lia].
  - cbn [iter] in H. step H v1 c1 o1 B1. pose proof (keep_refl (forallb letfree (a :: r)) c) as K.
    adv Ha HA K B1 F1 D1.
    destruct (IH _ _ _ _ G (andb_r _ _ HP) (pre_keep _ _ _ _ _ _ _ HA K (incl_appr _ (incl_refl _)) (andb_r _ _)) H) as (K3 & F3 & D3).
    pose proof (kp_lab _ _ _ K3).
    split; [eapply keep_trans; [exact K|eapply keep_weaken; [exact K3|apply andb_r]]|]. split; [fin|cbn [length]; lia].
Qed.

(** the default of evcon *)
Lemma con_default : forall e tl nl c c' u o G, ct e -> plain special e = true -> pre c G (fv e) (letfree e) ->
  (comp e ;; conditional_jump tl nl) c = Some (u, c', o) -> does0 (letfree e) c c' o.
Proof.
  intros e tl nl c c' u o G Hct HP HA H. step H v1 c1 o1 B1. destruct (Hct _ _ _ _ _ HP HA B1) as (K & F & D).
  unfold conditional_jump in H. destruct nl as [l|]; [|destruct tl as [l|]; [|known]].
  - unfold if_nil in H. step H v2 c2 o2 B2. apply pop_inv in B2 as (D2 & -> & -> & ->). known.
    mov K (popped c1). split; [exact K|]. split; [fin|]. split; [reflexivity|]. cbn; lia.
  - unfold if_t in H. step H v2 c2 o2 B2. apply pop_inv in B2 as (D2 & -> & -> & ->). known.
    mov K (popped c1). split; [exact K|]. split; [fin|]. split; [reflexivity|]. cbn; lia.
Qed.

Definition evall (ev : exp -> M unit) (tl nl : option nat) : list exp -> M unit :=
  fix all (args : list exp) : M unit := match args with [] => ret tt | a :: r => evcon ev a tl nl ;; all r end.
Lemma evall_ct : forall l tl nl, Forall ctcon l -> forall c c' u o G, forallb (plain special) l = true ->
  pre c G (flat_map fv l) (forallb letfree l) -> evall comp tl nl l c = Some (u, c', o) ->
  keep (forallb letfree l) c c' /\ fresh (lab c) (lab c') o /\ depth c' = depth c /\ (l <> [] -> push c' = None).
Proof.
  intros l tl nl; induction 1 as [|a r Ha HF IH]; intros c c' u o G HP HA H.
  - cbn [evall] in H. known. split; [apply keep_refl|]. split; [fin|]. split; [reflexivity|congruence].
  - cbn [evall] in H. step H v1 c1 o1 B1. pose proof (keep_refl (forallb letfree (a :: r)) c) as K.
    adv0 Ha HA K B1 F1 P1 D1.
    destruct (IH _ _ _ _ G (andb_r _ _ HP) (pre_keep _ _ _ _ _ _ _ HA K (incl_appr _ (incl_refl _)) (andb_r _ _)) H) as (K3 & F3 & D3 & P3).
    pose proof (kp_lab _ _ _ K3).
    split; [eapply keep_trans; [exact K|eapply keep_weaken; [exact K3|apply andb_r]]|]. split; [fin|].
    assert (D1' : depth c1 = depth c) by (unfold depth at 1, pending; rewrite P1; lia).
    split; [lia|]. intros _. destruct r as [|b r]; [|apply P3; discriminate]. cbn [evall] in H. known. exact P1.
Qed.
Lemma count_flat : forall c n, push c = None -> depth c = n -> count c = n.
Proof. intros c n H; unfold depth, pending; rewrite H; lia. Qed.

Lemma and_con : forall l, Forall ctcon l -> l <> [] -> ctcon (And l).
Proof.
  intros [|a r] HF N tl nl c c' u o G HP HA H; [congruence|]. set (l := a :: r) in *.
  change (evcon comp (And l) tl nl) with
    (lb <- (match nl with Some x => ret x | None => genlabel end) ;; evall comp None (Some lb) l ;;
     match nl, tl with Some _, _ => ret tt | None, Some t => jump t ;; label lb | None, None => err end) in H.
  step H lb c1 o1 B1. pose proof (keep_refl (letfree (And l)) c) as K. destruct nl as [x|].
  - known. step H v2 c2 o2 B2. known. destruct (evall_ct _ _ _ HF _ _ _ _ G HP HA B2) as (K2 & F2 & D2 & P2).
    split; [exact K2|]. split; [fin|]. split; [apply P2, N|]. apply count_flat; [apply P2, N|exact D2].
  - known. step H v2 c2 o2 B2. mov K (with_lab c (S (lab c))).
    destruct (evall_ct _ _ _ HF _ _ _ _ G HP (pre_ext _ (with_lab c (S (lab c))) _ _ _ HA eq_refl eq_refl) B2) as (K2 & F2 & D2 & P2).
    pose proof (keep_trans _ _ _ _ K K2) as K3. pose proof (kp_lab _ _ _ K2) as L2. cbn [lab with_lab] in L2.
    destruct tl as [t|]; [|known]. step H v3 c3 o3 B3. known. known. mov K3 (flat c2). mov K3 (flat (flat c2)).
    split; [exact K3|]. split; [fin|]. split; [reflexivity|]. cbn [count flat pc]. dp. exact D2.
Qed.
Lemma or_con : forall l, Forall ctcon l -> l <> [] -> ctcon (Or l).
Proof.
  intros [|a r] HF N tl nl c c' u o G HP HA H; [congruence|]. set (l := a :: r) in *.
  change (evcon comp (Or l) tl nl) with
    (lb <- (match tl with Some x => ret x | None => genlabel end) ;; evall comp (Some lb) None l ;;
     match tl, nl with Some _, _ => ret tt | None, Some t => jump t ;; label lb | None, None => err end) in H.
  step H lb c1 o1 B1. pose proof (keep_refl (letfree (Or l)) c) as K. destruct tl as [x|].
  - known. step H v2 c2 o2 B2. known. destruct (evall_ct _ _ _ HF _ _ _ _ G HP HA B2) as (K2 & F2 & D2 & P2).
    split; [exact K2|]. split; [fin|]. split; [apply P2, N|]. apply count_flat; [apply P2, N|exact D2].
  - known. step H v2 c2 o2 B2. mov K (with_lab c (S (lab c))).
    destruct (evall_ct _ _ _ HF _ _ _ _ G HP (pre_ext _ (with_lab c (S (lab c))) _ _ _ HA eq_refl eq_refl) B2) as (K2 & F2 & D2 & P2).
    pose proof (keep_trans _ _ _ _ K K2) as K3. pose proof (kp_lab _ _ _ K2) as L2. cbn [lab with_lab] in L2.
    destruct nl as [t|]; [|known]. step H v3 c3 o3 B3. known. known. mov K3 (flat c2). mov K3 (flat (flat c2)).
    split; [exact K3|]. split; [fin|]. split; [reflexivity|]. cbn [count flat pc]. dp. exact D2.
Qed.
Lemma is_con : forall p a, ct a -> ctcon (Is p a).
Proof.
  intros p a Ha tl nl c c' u o G HP HA H. cbn [evcon] in H. step H v1 c1 o1 B1. destruct (Ha _ _ _ _ _ HP HA B1) as (K & F & D).
  destruct nl as [l|]; [|destruct tl as [l|]; [|known]].
  - unfold if_not_type in H. step H v2 c2 o2 B2. apply store_inv in B2 as (D2 & -> & ->). known.
    mov K (popped c1). split; [exact K|]. split; [fin|]. split; [reflexivity|]. cbn; lia.
  - unfold if_type in H. step H v2 c2 o2 B2. apply store_inv in B2 as (D2 & -> & ->). known.
    mov K (popped c1). split; [exact K|]. split; [fin|]. split; [reflexivity|]. cbn; lia.
Qed.
Lemma eq_con : forall a b, ct a -> ct b -> ctcon (Eq a b).
Proof.
  intros a b Ha Hb tl nl c c' u o G HP HA H. cbn [evcon] in H. pose proof (keep_refl (letfree (Eq a b)) c) as K.
  step H v1 c1 o1 B1. adv Ha HA K B1 F1 D1. step H v2 c2 o2 B2. adv Hb HA K B2 F2 D2.
  destruct nl as [l|]; [|destruct tl as [l|]; [|known]].
  - unfold if_neq in H. step H v3 c3 o3 B3. step H v4 c4 o4 B4. known.
    destruct (pop2_inv _ _ _ _ _ _ _ B3 B4) as (D3 & -> & -> & -> & -> & ->).
    mov K (pc c2 None (depth c2 - 2)). split; [exact K|]. split; [fin|]. split; [reflexivity|]. cbn; lia.
  - unfold if_eq in H. step H v3 c3 o3 B3. step H v4 c4 o4 B4. known.
    destruct (pop2_inv _ _ _ _ _ _ _ B3 B4) as (D3 & -> & -> & -> & -> & ->).
    mov K (pc c2 None (depth c2 - 2)). split; [exact K|]. split; [fin|]. split; [reflexivity|]. cbn; lia.
Qed.

Lemma and_cons : forall ev a r x, r <> [] -> and_ ev (a :: r) x = (ev a ;; dupe ;; if_nil x ;; discard 1 ;; and_ ev r x).
Proof. intros ev a [|b r] x H; [congruence|reflexivity]. Qed.
Lemma or_cons : forall ev a r x, r <> [] -> or_ ev (a :: r) x = (ev a ;; dupe ;; if_t x ;; discard 1 ;; or_ ev r x).
Proof. intros ev a [|b r] x H; [congruence|reflexivity]. Qed.
Lemma pop_dup : forall c, popped (pc c (Some (dup_expr c)) (depth c)) = flat c.
Proof. intro c; unfold popped; rewrite depth_pc; unfold flat, pc; cbn; rewrite Nat.sub_0_r; reflexivity. Qed.
Lemma and_ct : forall l x, Forall ct l -> forall c c' u o G, forallb (plain special) l = true ->
  pre c G (flat_map fv l) (forallb letfree l) -> and_ comp l x c = Some (u, c', o) -> does (forallb letfree l) c c' o.
Proof.
  intros l x; induction 1 as [|a r Ha HF IH]; intros c c' u o G HP HA H.
  - cbn [and_] in H. known. split; [apply keep_pc|]. split; [fin|apply depth_pc].
  - pose proof (keep_refl (forallb letfree (a :: r)) c) as K. destruct r as [|b r].
    + cbn [and_] in H. adv Ha HA K H F1 D1. split; [exact K|]. split; [fin|exact D1].
    + rewrite and_cons in H by discriminate. set (br := b :: r) in *. step H v1 c1 o1 B1. adv Ha HA K B1 F1 D1.
      step H v2 c2 o2 B2. known. step H v3 c3 o3 B3. unfold if_nil in B3. step B3 v4 c4 o4 B4. known.
      apply pop_inv in B4 as (D4 & -> & -> & ->). rewrite pop_dup in *. step H v5 c5 o5 B5. known.
      mov K (flat c1). mov K (popped (flat c1)). adv IH HA K H F2 D2. split; [exact K|]. split; [fin|dp; lia].
Qed.
Lemma or_ct : forall l x, Forall ct l -> forall c c' u o G, forallb (plain special) l = true ->
  pre c G (flat_map fv l) (forallb letfree l) -> or_ comp l x c = Some (u, c', o) -> does (forallb letfree l) c c' o.
Proof.
  intros l x; induction 1 as [|a r Ha HF IH]; intros c c' u o G HP HA H.
  - cbn [or_] in H. known. split; [apply keep_pc|]. split; [fin|apply depth_pc].
  - pose proof (keep_refl (forallb letfree (a :: r)) c) as K. destruct r as [|b r].
    + cbn [or_] in H. adv Ha HA K H F1 D1. split; [exact K|]. split; [fin|exact D1].
    + rewrite or_cons in H by discriminate. set (br := b :: r) in *. step H v1 c1 o1 B1. adv Ha HA K B1 F1 D1.
      step H v2 c2 o2 B2. known. step H v3 c3 o3 B3. unfold if_t in B3. step B3 v4 c4 o4 B4. known.
      apply pop_inv in B4 as (D4 & -> & -> & ->). rewrite pop_dup in *. step H v5 c5 o5 B5. known.
      mov K (flat c1). mov K (popped (flat c1)). adv IH HA K H F2 D2. split; [exact K|]. split; [fin|dp; lia].
Qed.

Definition clause (ev : exp -> M unit) (exit next : nat) (p : exp) (body : list exp) : M unit :=
  match body with
  | [] => ev p ;; dupe ;; if_t exit ;; discard 1
  | _ => (if is_t p then ret tt else evcon ev p None (Some next)) ;; progn ev body ;; jump exit ;; adjust 1
  end.
Lemma cond_cons : forall ev p body r exit, cond ev ((p, body) :: r) exit =
  (next <- genlabel ;; clause ev exit next p body ;; label next ;; cond ev r exit).
Proof. reflexivity. Qed.
Lemma clause_ct : forall p body exit next, ct p -> ctcon p -> Forall ct body -> forall c c' u o G,
  plain special p = true -> forallb (plain special) body = true -> pre c G (fv p ++ flat_map fv body) (letfree p && forallb letfree body) ->
  clause comp exit next p body c = Some (u, c', o) ->
  keep (letfree p && forallb letfree body) c c' /\ fresh (lab c) (lab c') o /\ push c' = None /\ count c' = depth c.
Proof.
  intros p body exit next Hp Hc Hb c c' u o G P1 P2 HA H. pose proof (keep_refl (letfree p && forallb letfree body) c) as K.
  destruct body as [|b r].
  - cbn [clause] in H. step H v1 c1 o1 B1. adv Hp HA K B1 F1 D1. step H v2 c2 o2 B2. known.
    step H v3 c3 o3 B3. unfold if_t in B3. step B3 v4 c4 o4 B4. known. known.
    apply pop_inv in B4 as (D4 & -> & -> & ->). rewrite pop_dup in *. mov K (flat c1). mov K (popped (flat c1)).
    split; [exact K|]. split; [fin|]. split; [reflexivity|]. cbn [popped pc count]. dp. lia.
  - set (body := b :: r) in *.
    change (clause comp exit next p body) with ((if is_t p then ret tt else evcon comp p None (Some next)) ;; progn comp body ;; jump exit ;; adjust 1) in H.
    step H v1 c1 o1 B1.
    assert (X : keep (letfree p && forallb letfree body) c c1 /\ fresh (lab c) (lab c1) o1 /\ depth c1 = depth c /\ lab c <= lab c1).
    { destruct (is_t p).
      - known. split; [exact K|]. split; [fin|auto].
      - adv0 Hc HA K B1 F1 Q1 D1. split; [exact K|]. split; [exact F1|]. split; [|exact L]. unfold depth at 1, pending. rewrite Q1. lia. }
    clear K B1. destruct X as (K & F1 & D1 & L1).
    step H v2 c2 o2 B2. pose proof (progn_ct _ Hb) as Hpr. adv Hpr HA K B2 F2 D2.
    step H v3 c3 o3 B3. known. mov K (flat c2). known. mov K (pc (flat c2) (push (flat c2)) (count (flat c2) - 1)).
    split; [exact K|]. split; [fin|]. split; [reflexivity|]. cbn. lia.
Qed.
Lemma cond_ct : forall l exit, Forall (fun p => ct (fst p) /\ ctcon (fst p) /\ Forall ct (snd p)) l -> forall c c' u o G,
  forallb (fun p => plain special (fst p) && forallb (plain special) (snd p)) l = true ->
  pre c G (flat_map (fun p => fv (fst p) ++ flat_map fv (snd p)) l) (forallb (fun p => letfree (fst p) && forallb letfree (snd p)) l) ->
  cond comp l exit c = Some (u, c', o) ->
  keep (forallb (fun p => letfree (fst p) && forallb letfree (snd p)) l) c c' /\ fresh (lab c) (lab c') o /\ depth c' = depth c.
Proof.
  intros l exit; induction 1 as [|[p body] r (Hp & Hc & Hb) HF IH]; intros c c' u o G HP HA H.
  - cbn [cond] in H. known. split; [apply keep_refl|]. split; [fin|reflexivity].
  - rewrite cond_cons in H. cbn [fst snd] in Hp, Hc, Hb. cbn [forallb flat_map fst snd] in HP, HA |- *.
    set (LF := letfree p && forallb letfree body && forallb (fun q => letfree (fst q) && forallb letfree (snd q)) r) in *.
    pose proof (keep_refl LF c) as K.
    step H next c1 o1 B1. known. mov K (with_lab c (S (lab c))). step H v2 c2 o2 B2.
    destruct (clause_ct _ _ _ _ Hp Hc Hb _ _ _ _ G (andb_l _ _ (andb_l _ _ HP)) (andb_r _ _ (andb_l _ _ HP))
      (pre_keep _ _ _ _ _ _ _ HA K (incl_appl _ (incl_refl _)) (andb_l _ _)) B2) as (K2 & F2 & P2 & D2).
    assert (K3 : keep LF c c2) by (eapply keep_trans; [exact K|eapply keep_weaken; [exact K2|apply andb_l]]).
    step H v3 c3 o3 B3. known. mov K3 (flat c2).
    destruct (IH _ _ _ _ G (andb_r _ _ HP) (pre_keep _ _ _ _ _ _ _ HA K3 (incl_appr _ (incl_refl _)) (andb_r _ _)) H) as (K4 & F4 & D4).
    split; [eapply keep_trans; [exact K3|eapply keep_weaken; [exact K4|apply andb_r]]|].
    pose proof (kp_lab _ _ _ K2); pose proof (kp_lab _ _ _ K4).
    rewrite depth_lab in D2. assert (E2 : depth c2 = depth c) by (unfold depth at 1, pending; rewrite P2, D2; lia).
    split; [fin|dp; lia].
Qed.

(** *** Bindings *)
Definition setb (x : nat) (i : ident) (f : frame) : frame := match assq x f with Some _ => replace_id x i f | None => (x, i) :: f end.
Lemma assq_replace : forall x i f y, assq x f <> None -> assq y (replace_id x i f) = if Nat.eqb x y then Some i else assq y f.
Proof.
  intros x i f y. induction f as [|[z k] f IH]; cbn [assq replace_id]; intro H; [congruence|].
  destruct (Nat.eqb_spec z x) as [->|N]; cbn [assq].
  - destruct (Nat.eqb x y); reflexivity.
  - rewrite IH by exact H. destruct (Nat.eqb_spec z y) as [->|N2]; [|reflexivity].
    destruct (Nat.eqb_spec x y); [congruence|reflexivity].
Qed.
Lemma assq_setb : forall x i f y, assq y (setb x i f) = if Nat.eqb x y then Some i else assq y f.
Proof.
  intros x i f y. unfold setb. destruct (assq x f) as [j|] eqn:E; [|reflexivity]. apply assq_replace. congruence.
Qed.
Lemma okids_setb : forall x i f r, okids (f :: r) -> (i = Special <-> special x = true) -> okids (setb x i f :: r).
Proof.
  intros x i f r H Hi g y j [<-|HI] E; [|apply (H g y j); [right; exact HI|exact E]].
  rewrite assq_setb in E. destruct (Nat.eqb_spec x y) as [->|N]; [injection E as <-; exact Hi|]. apply (H f y j); [left; reflexivity|exact E].
Qed.

Lemma special_variable_inv : forall x c a c' o f r, ids c = f :: r -> okids (ids c) ->
  special_variable_p special x c = Some (a, c', o) -> a = special x /\ c' = c /\ o = [].
Proof.
  intros x c a c' o f r HI HO H. unfold special_variable_p in H. step H v1 c1 o1 B1. known. known. split; [|auto].
  unfold top_frame. rewrite HI. destruct (assq x f) as [i|] eqn:E; [|reflexivity].
  assert (K : i = Special <-> special x = true) by (apply (HO f); [rewrite HI; left; reflexivity|exact E]).
  destruct i; [symmetry; apply K; reflexivity|..]; destruct (special x); try reflexivity; destruct K as [_ K]; specialize (K eq_refl); discriminate.
Qed.
Lemma set_binding_inv : forall x i c a c' o, set_binding x i c = Some (a, c', o) -> exists f r, ids c = f :: r /\
  c' = mkCst (push c) (count c) (lab c) (setb x i f :: r) (scope c) (blocks c) (tags c) (unwinds c) (frames c) /\ o = [].
Proof.
  intros x i c a c' o H. unfold set_binding in H. step H v1 c1 o1 B1. known. destruct (ids c) as [|f r] eqn:E; [known|].
  exists f, r. unfold setb. destruct (assq x f); unfold set_ids in H; injection H as <- <- <-; auto.
Qed.
Lemma add_special_inv : forall c a c' o, add_special c = Some (a, c', o) -> exists s l fr, frames c = (s, l) :: fr /\
  c' = mkCst (push c) (count c) (lab c) (ids c) (scope c) (blocks c) (tags c) (unwinds c) ((S s, l) :: fr) /\ o = [].
Proof.
  intros c a c' o H. unfold add_special in H. step H v1 c1 o1 B1. known. destruct (frames c) as [|[s l] fr] eqn:E; [known|].
  unfold set_frames in H; injection H as <- <- <-. exists s, l, fr. auto.
Qed.
Lemma add_local_inv : forall c a c' o, add_local c = Some (a, c', o) -> exists s l fr, frames c = (s, l) :: fr /\
  c' = mkCst (push c) (count c) (lab c) (ids c) (scope c) (blocks c) (tags c) (unwinds c) ((s, S l) :: fr) /\ o = [].
Proof.
  intros c a c' o H. unfold add_local in H. step H v1 c1 o1 B1. known. destruct (frames c) as [|[s l] fr] eqn:E; [known|].
  unfold set_frames in H; injection H as <- <- <-. exists s, l, fr. auto.
Qed.
(** a lexical binding in local[off] *)
Lemma bind_lex : forall x off c u c' o f r, special x = false -> ids c = f :: r -> okids (ids c) ->
  bind_var special x false off c = Some (u, c', o) -> exists s l fr, frames c = (s, l) :: fr /\ o = [] /\
  c' = mkCst (push c) (count c) (lab c) (setb x (InLocal off) f :: r) (scope c) (blocks c) (tags c) (unwinds c) ((s, S l) :: fr).
Proof.
  intros x off c u c' o f r HS HI HO H. unfold bind_var in H. step H b c1 o1 B1.
  apply special_variable_inv with (f := f) (r := r) in B1 as (-> & -> & ->); auto. rewrite HS in H.
  step H v2 c2 o2 B2. apply add_local_inv in B2 as (s & l & fr & E & -> & ->).
  apply set_binding_inv in H as (f' & r' & E2 & -> & ->). cbn [ids] in E2. rewrite HI in E2. injection E2 as <- <-.
  exists s, l, fr. auto.
Qed.
Lemma bind_lex_arg : forall x off c u c' o f r, special x = false -> ids c = f :: r -> okids (ids c) ->
  bind_var special x true off c = Some (u, c', o) -> o = [] /\
  c' = mkCst (push c) (count c) (lab c) (setb x (InArg off) f :: r) (scope c) (blocks c) (tags c) (unwinds c) (frames c).
Proof.
  intros x off c u c' o f r HS HI HO H. unfold bind_var in H. step H b c1 o1 B1.
  apply special_variable_inv with (f := f) (r := r) in B1 as (-> & -> & ->); auto. rewrite HS in H.
  step H v2 c2 o2 B2. known.
  apply set_binding_inv in H as (f' & r' & E2 & -> & ->). rewrite HI in E2. injection E2 as <- <-. auto.
Qed.
Lemma bind_special_inv : forall x c u c' o, bind_special x c = Some (u, c', o) -> 0 < depth c /\
  c' = pc c None (depth c - 1 + 3) /\ o = store_code CW c ++ [SBind x (depth c - 1)].
Proof.
  intros x c u c' o H. unfold bind_special in H. step H v1 c1 o1 B1. apply store_inv in B1 as (D & -> & ->).
  step H v2 c2 o2 B2. known. step H v3 c3 o3 B3. known. unfold set_count in H. injection H as <- <- <-.
  split; [exact D|]. split; [reflexivity|]. cbn [count popped pc app]. reflexivity.
Qed.
(** a special binding of the value on the top *)
Lemma bind_spe : forall x off c u c' o f r, special x = true -> ids c = f :: r -> okids (ids c) ->
  bind_var special x false off c = Some (u, c', o) -> exists s l fr, frames c = (s, l) :: fr /\ 0 < depth c /\
  o = store_code CW c ++ [SBind x (depth c - 1)] /\
  c' = mkCst None (depth c - 1 + 3) (lab c) (setb x Special f :: r) (scope c) (blocks c) (tags c) (off :: unwinds c) ((S s, l) :: fr).
Proof.
  intros x off c u c' o f r HS HI HO H. unfold bind_var in H. step H b c1 o1 B1.
  apply special_variable_inv with (f := f) (r := r) in B1 as (-> & -> & ->); auto. rewrite HS in H.
  step H v2 c2 o2 B2. apply set_binding_inv in B2 as (f' & r' & E2 & -> & ->). rewrite HI in E2. injection E2 as <- <-.
  step H v3 c3 o3 B3. apply add_special_inv in B3 as (s & l & fr & E & -> & ->). cbn [frames] in E.
  step H v4 c4 o4 B4. known. step H v5 c5 o5 B5. known. step H v6 c6 o6 B6. unfold set_unwinds in B6. injection B6 as <- <- <-.
  apply bind_special_inv in H as (D & -> & ->). exists s, l, fr. auto.
Qed.
Lemma bind_spe_arg : forall x off c u c' o f r, special x = true -> ids c = f :: r -> okids (ids c) ->
  bind_var special x true off c = Some (u, c', o) -> exists s l fr, frames c = (s, l) :: fr /\
  o = flush c ++ [SW (CArg off); SBind x (depth c)] /\
  c' = mkCst None (depth c + 3) (lab c) (setb x Special f :: r) (scope c) (blocks c) (tags c) (off :: unwinds c) ((S s, l) :: fr).
Proof.
  intros x off c u c' o f r HS HI HO H. unfold bind_var in H. step H b c1 o1 B1.
  apply special_variable_inv with (f := f) (r := r) in B1 as (-> & -> & ->); auto. rewrite HS in H.
  step H v2 c2 o2 B2. apply set_binding_inv in B2 as (f' & r' & E2 & -> & ->). rewrite HI in E2. injection E2 as <- <-.
  step H v3 c3 o3 B3. apply add_special_inv in B3 as (s & l & fr & E & -> & ->). cbn [frames] in E.
  step H v4 c4 o4 B4. known. step H v5 c5 o5 B5. known. step H v6 c6 o6 B6. unfold set_unwinds in B6. injection B6 as <- <- <-.
  apply bind_special_inv in H as (D & -> & ->). exists s, l, fr. split; [exact E|].
  unfold depth, pending, pc, store_code, topexpr, flush; cbn. rewrite Nat.add_sub. split; reflexivity.
Qed.

(** the frame being built *)
Definition fok (f : frame) (Gp : ctx) (bnd : list nat) : Prop := forall x,
  if special x then (assq x f = None /\ ~ In x bnd) \/ assq x f = Some Special
  else assq x f = assq x Gp /\ (In x bnd <-> assq x Gp <> None) /\ assq x Gp <> Some Special.
Lemma fok_nil : fok [] [] [].
Proof. intro x; destruct (special x); cbn; [left; tauto|]. split; [reflexivity|]. split; [tauto|discriminate]. Qed.
Lemma fok_lex : forall f Gp bnd x i, fok f Gp bnd -> special x = false -> i <> Special -> fok (setb x i f) ((x, i) :: Gp) (x :: bnd).
Proof.
  intros f Gp bnd x i H HS HN y. specialize (H y). rewrite assq_setb. cbn [assq In].
  destruct (Nat.eqb_spec x y) as [->|N].
  - rewrite HS in *. split; [reflexivity|]. split; [split; [discriminate|left; reflexivity]|congruence].
  - destruct (special y); [destruct H as [[H1 H2]|H]; [left; split; [exact H1|intros [E|E]; [congruence|contradiction]]|right; exact H]|].
    destruct H as (H1 & H2 & H3). split; [exact H1|]. split; [|exact H3]. rewrite <- H2. tauto.
Qed.
Lemma fok_spe : forall f Gp bnd x, fok f Gp bnd -> special x = true -> fok (setb x Special f) Gp (x :: bnd).
Proof.
  intros f Gp bnd x H HS y. specialize (H y). rewrite assq_setb. cbn [In].
  destruct (Nat.eqb_spec x y) as [->|N]; [rewrite HS; right; reflexivity|].
  destruct (special y); [destruct H as [[H1 H2]|H]; [left; split; [exact H1|intros [E|E]; [congruence|contradiction]]|right; exact H]|].
  destruct H as (H1 & H2 & H3). split; [exact H1|]. split; [|exact H3]. rewrite <- H2. tauto.
Qed.
Lemma fok_incl : forall f Gp bnd bnd', fok f Gp bnd -> (forall x, In x bnd <-> In x bnd') -> fok f Gp bnd'.
Proof.
  intros f Gp bnd bnd' H E x. specialize (H x). destruct (special x); [destruct H as [[H1 H2]|H]; [left; rewrite <- E; auto|right; exact H]|].
  rewrite <- E. exact H.
Qed.
Lemma assq_app : forall (A : Type) x (a b : list (nat * A)), assq x (a ++ b) = match assq x a with Some i => Some i | None => assq x b end.
Proof. intros A x a b; induction a as [|[y i] a IH]; [reflexivity|]. rewrite <- app_comm_cons. cbn [assq]. destruct (Nat.eqb y x); auto. Qed.

Lemma lk_level : forall is x, is <> [] -> lk is (length is - 1) x = search x is.
Proof. intros is x H; unfold lk. rewrite Nat.sub_diag. reflexivity. Qed.
Lemma lk_inner : forall f is x, lk (f :: is) (length is) x = search x (f :: is).
Proof. intros; unfold lk. cbn [length]. replace (S (length is) - 1 - length is) with 0 by lia. reflexivity. Qed.
Lemma lk_outer : forall f is x, is <> [] -> lk (f :: is) (length is - 1) x = search x is.
Proof.
  intros f is x H; unfold lk. cbn [length]. destruct is as [|g is]; [congruence|]. cbn [length].
  replace (S (S (length is)) - 1 - (S (length is) - 1)) with 1 by lia. reflexivity.
Qed.
(** in the body *)
Lemma good_inner : forall f Gp bnd is G x, fok f Gp bnd -> is <> [] -> In x bnd \/ good is G (length is - 1) x ->
  good (f :: is) (Gp ++ G) (length is) x.
Proof.
  intros f Gp bnd is G x HF HN HX. unfold good in *. rewrite lk_inner, lk_level in * by exact HN. cbn [search]. specialize (HF x).
  destruct (special x).
  - destruct HF as [[E1 E2]|E]; [|rewrite E; auto]. rewrite E1. destruct HX as [HX|HX]; [contradiction|exact HX].
  - destruct HF as (E1 & E2 & E3). rewrite E1, assq_app. destruct (assq x Gp) as [i|] eqn:E.
    + exists i. split; [reflexivity|]. split; [congruence|reflexivity].
    + destruct HX as [HX|HX]; [rewrite E2 in HX; congruence|]. exact HX.
Qed.
(** in a value form of a let *)
Lemma good_outer : forall f is G x, is <> [] -> good is G (length is - 1) x -> good (f :: is) G (length is - 1) x.
Proof. intros f is G x HN H. unfold good in *. rewrite lk_outer by exact HN. rewrite lk_level in H by exact HN. exact H. Qed.
Lemma good_clear : forall f Gp bnd is G x, fok f Gp bnd -> is <> [] -> (special x = true \/ ~ In x bnd) ->
  good is G (length is - 1) x -> good (f :: is) G (length is) x.
Proof.
  intros f Gp bnd is G x HF HN HX H. unfold good in *. rewrite lk_inner. rewrite lk_level in H by exact HN. cbn [search]. specialize (HF x).
  destruct (special x).
  - destruct HF as [[E1 E2]|E]; [rewrite E1; exact H|rewrite E; auto].
  - destruct HX as [HX|HX]; [discriminate|]. destruct HF as (E1 & E2 & E3). rewrite E1. destruct (assq x Gp) as [i|] eqn:E; [|exact H].
    exfalso. apply HX, E2. discriminate.
Qed.
Lemma in_minus : forall x l r, In x (minus l r) <-> In x l /\ ~ In x r.
Proof.
  intros x l r; unfold minus, mem. rewrite filter_In. split; intros [H1 H2]; (split; [exact H1|]).
  - intro K. apply negb_true_iff in H2. rewrite <- not_true_iff_false in H2. apply H2. apply existsb_exists. exists x. split; [exact K|apply Nat.eqb_refl].
  - apply negb_true_iff, not_true_iff_false. intro K. apply existsb_exists in K as (y & HI & E). apply Nat.eqb_eq in E. subst. contradiction.
Qed.
Lemma mem_in : forall x l, mem x l = true <-> In x l.
Proof.
  intros x l; unfold mem. rewrite existsb_exists. split; [intros (y & HI & E); apply Nat.eqb_eq in E; subst; exact HI|].
  intro H; exists x. split; [exact H|apply Nat.eqb_refl].
Qed.

(** *** let *)
Definition fresh_frames (c c1 : cst) (s l : nat) (fr : list (nat * nat)) : Prop := frames c1 = frames c /\ frames c = (s, l) :: fr.
Definition with_scope (c : cst) (n : nat) : cst :=
  mkCst (push c) (count c) (lab c) (ids c) n (blocks c) (tags c) (unwinds c) (frames c).

(** The invariant while a frame is built: [is] are the outer frames, [G] what they mean *)
Record building (is : list frame) (G : ctx) (fr : list (nat * nat)) (c : cst) (f : frame) (Gp : ctx) (bnd : list nat) (s l : nat) : Prop := mkBuilding {
  bu_ids : ids c = f :: is;
  bu_ok : okids (f :: is);
  bu_nonempty : is <> [];
  bu_frames : frames c = (s, l) :: fr;
  bu_fok : fok f Gp bnd
}.

Lemma init_pre : forall is G fr c f Gp bnd s l seen a, building is G fr c f Gp bnd s l ->
  clear_of special seen a = true -> (forall x, In x bnd -> special x = true \/ In x seen) ->
  (forall x, In x (fv a) -> good is G (length is - 1) x) ->
  pre (with_scope c (length (ids c) - 1 - 1)) G (fv a) (letfree a).
Proof.
  intros is G fr c f Gp bnd s l seen a [HI HO HN HF HK] HC HB HG. unfold pre, agr, level. cbn [ids with_scope scope]. rewrite HI. cbn [length].
  replace (S (length is) - 1 - 1) with (length is - 1) by lia. replace (S (length is) - 1) with (length is) by lia.
  split; [|split; [exact HO|discriminate]]. split.
  - intros x Hx. apply good_outer; [exact HN|apply HG, Hx].
  - unfold clear_of in HC. apply orb_true_iff in HC as [HC|HC]; [left; exact HC|right]. intros x Hx. eapply good_clear; [exact HK|exact HN| |apply HG, Hx].
    destruct (special x) eqn:E; [left; reflexivity|right]. intro K. apply HB in K as [K|K]; [congruence|].
    rewrite forallb_forall in HC. specialize (HC x K). rewrite E in HC. cbn [orb] in HC. apply negb_true_iff in HC.
    rewrite <- not_true_iff_false in HC. apply HC, mem_in, Hx.
Qed.

(** one value form *)
Lemma let_init_step : forall is G fr c f Gp bnd s l seen x a r sp sp' c' o, building is G fr c f Gp bnd s l ->
  clear_of special seen a = true -> (forall x, In x bnd -> special x = true \/ In x seen) ->
  (forall x, In x (fv a) -> good is G (length is - 1) x) -> ct a -> plain special a = true ->
  let_inits special comp ((x, a) :: r) sp c = Some (sp', c', o) ->
  exists u c1 o1 c2 o2, comp a (with_scope c (length (ids c) - 1 - 1)) = Some (u, c1, o1) /\
    o = o1 ++ flush c1 ++ o2 /\
    does (letfree a) (with_scope c (length (ids c) - 1 - 1)) c1 o1 /\
    let off := depth c1 - 1 in
    if special x then
      let_inits special comp r ((x, off) :: sp) c2 = Some (sp', c', o2) /\ building is G fr c2 f Gp bnd s (S l) /\
      c2 = mkCst None (depth c1) (lab c1) (ids c1) (scope c1) (blocks c1) (tags c1) (unwinds c1) (frames c2)
    else
      let_inits special comp r sp c2 = Some (sp', c', o2) /\
      building is G fr c2 (setb x (InLocal off) f) ((x, InLocal off) :: Gp) (x :: bnd) s (S l) /\
      c2 = mkCst None (depth c1) (lab c1) (ids c2) (scope c1) (blocks c1) (tags c1) (unwinds c1) (frames c2).
Proof.
  intros is G fr c f Gp bnd s l seen x a r sp sp' c' o HB HC HS HG Hct HP H.
  pose proof (init_pre _ _ _ _ _ _ _ _ _ _ _ HB HC HS HG) as HA. destruct HB as [HI HO HN HF HK].
  cbn [let_inits] in H. step H v1 c1 o1 B1. known. step H v2 c2 o2 B2. unfold set_scope in B2. injection B2 as <- <- <-.
  change (mkCst (push c) (count c) (lab c) (ids c) (length (ids c) - 1 - 1) (blocks c) (tags c) (unwinds c) (frames c)) with
    (with_scope c (length (ids c) - 1 - 1)) in H.
  step H v3 c3 o3 B3. pose proof (Hct _ _ _ _ _ HP HA B3) as HD. pose proof HD as (K & _ & D).
  assert (I3 : ids c3 = f :: is) by (rewrite (keep_ids _ _ _ K); exact HI).
  assert (F3 : frames c3 = (s, l) :: fr) by (rewrite (kp_frames _ _ _ K); exact HF).
  step H v4 c4 o4 B4. known. step H v5 c5 o5 B5.
  apply special_variable_inv with (f := f) (r := is) in B5 as (-> & -> & ->); [|exact I3|cbn; rewrite I3; exact HO].
  exists v3, c3, o3. destruct (special x) eqn:SX.
  - step H v6 c6 o6 B6. apply add_local_inv in B6 as (s' & l' & fr' & E & -> & ->). cbn [frames flat pc] in E. rewrite F3 in E.
    injection E as <- <- <-. eexists; eexists. split; [exact B3|]. split; [reflexivity|]. split; [exact HD|].
    split; [exact H|]. split; [split; auto|reflexivity].
  - step H v6 c6 o6 B6. apply bind_lex with (f := f) (r := is) in B6 as (s' & l' & fr' & E & -> & ->); [|exact SX|exact I3|cbn; rewrite I3; exact HO].
    cbn [frames flat pc] in E. rewrite F3 in E. injection E as <- <- <-.
    eexists; eexists. split; [exact B3|]. split; [reflexivity|]. split; [exact HD|]. split; [exact H|]. split; [|reflexivity].
    split; auto; [apply okids_setb; [exact HO|split; [discriminate|congruence]]|apply fok_lex; [exact HK|exact SX|discriminate]].
Qed.

Definition inits_plain : list (nat * exp) -> list nat -> bool :=
  fix inits (b : list (nat * exp)) (seen : list nat) : bool :=
    match b with [] => true | p :: r => plain special (snd p) && clear_of special seen (snd p) && inits r (fst p :: seen) end.
Lemma plain_let : forall b l, plain special (Let b l) = inits_plain b [] && forallb (plain special) l.
Proof. reflexivity. Qed.

Record moved (c c' : cst) (o : list stmt) : Prop := mkMoved {
  mv_blocks : blocks c' = blocks c;
  mv_tags : tags c' = tags c;
  mv_lab : lab c <= lab c';
  mv_fresh : fresh (lab c) (lab c') o
}.
Definition lexnames (b : list (nat * exp)) : list nat := filter (fun x => negb (special x)) (map fst b).
Definition spenames (b : list (nat * exp)) : list nat := filter special (map fst b).

Lemma let_inits_ct : forall is G fr b seen f Gp bnd s l c sp sp' c' o, Forall (fun p => ct (snd p)) b ->
  building is G fr c f Gp bnd s l -> inits_plain b seen = true -> (forall x, In x bnd -> special x = true \/ In x seen) ->
  (forall x, In x (flat_map (fun p => fv (snd p)) b) -> good is G (length is - 1) x) ->
  let_inits special comp b sp c = Some (sp', c', o) ->
  exists f' Gp', building is G fr c' f' Gp' (rev (lexnames b) ++ bnd) s (l + length b) /\
    map fst sp' = rev (spenames b) ++ map fst sp /\ depth c' = depth c + length b /\ unwinds c' = unwinds c /\ moved c c' o.
Proof.
  intros is G fr b; induction b as [|[x a] r IH]; intros seen f Gp bnd s l c sp sp' c' o HF HB HP HS HG H.
  - cbn [let_inits] in H. known. exists f, Gp. cbn [length lexnames spenames map filter rev]. rewrite !Nat.add_0_r.
    split; [exact HB|]. split; [reflexivity|]. split; [reflexivity|]. split; [reflexivity|]. split; auto. fin.
  - inversion HF as [|? ? Ha HF']; subst. cbn [snd] in Ha. cbn [inits_plain snd fst] in HP. fold inits_plain in HP.
    apply andb_true_iff in HP as (HP1 & HP3). apply andb_true_iff in HP1 as (HP1 & HP2).
    cbn [flat_map snd] in HG.
    destruct (let_init_step _ _ _ _ _ _ _ _ _ _ _ _ _ _ _ _ _ HB HP2 HS (fun x Hx => HG x (in_or_app _ _ _ (or_introl Hx))) Ha HP1 H)
      as (u & c1 & o1 & c2 & o2 & B1 & -> & (K1 & F1 & D1) & X). cbv zeta in X.
    pose proof (kp_lab _ _ _ K1) as L1. pose proof (kp_blocks _ _ _ K1) as EB. pose proof (kp_tags _ _ _ K1) as ET.
    pose proof (kp_unwinds _ _ _ K1) as EU. change (depth (with_scope c (length (ids c) - 1 - 1))) with (depth c) in D1.
    cbn [with_scope lab blocks tags unwinds] in L1, EB, ET, EU, F1.
    unfold lexnames, spenames. cbn [map fst filter length]. fold (lexnames r) (spenames r).
    destruct (special x) eqn:SX; cbn [negb]; destruct X as (H2 & HB2 & EC).
    + assert (D2 : depth c2 = S (depth c)) by (rewrite EC; unfold depth at 1, pending; cbn [push count]; lia).
      assert (HS2 : forall y, In y bnd -> special y = true \/ In y (x :: seen))
        by (intros y Hy; destruct (HS y Hy); [left|right; right]; assumption).
      destruct (IH (x :: seen) _ _ _ _ _ _ _ _ _ _ HF' HB2 HP3 HS2 (fun y Hy => HG y (in_or_app _ _ _ (or_intror Hy))) H2)
        as (f' & Gp' & HB' & E1 & E2 & E3 & [M1 M2 M3 M4]).
      exists f', Gp'. replace (l + S (length r)) with (S l + length r) by lia. split; [exact HB'|].
      split; [rewrite E1; cbn [map fst rev]; rewrite <- app_assoc; reflexivity|]. split; [lia|].
      rewrite EC in E3, M1, M2, M3, M4. cbn [unwinds blocks tags lab] in E3, M1, M2, M3, M4. split; [congruence|].
      split; [congruence|congruence|lia|fin].
    + assert (D2 : depth c2 = S (depth c)) by (rewrite EC; unfold depth at 1, pending; cbn [push count]; lia).
      assert (HS2 : forall y, In y (x :: bnd) -> special y = true \/ In y (x :: seen))
        by (intros y [->|Hy]; [right; left; reflexivity|destruct (HS y Hy); [left|right; right]; assumption]).
      destruct (IH (x :: seen) _ _ _ _ _ _ _ _ _ _ HF' HB2 HP3 HS2 (fun y Hy => HG y (in_or_app _ _ _ (or_intror Hy))) H2)
        as (f' & Gp' & HB' & E1 & E2 & E3 & [M1 M2 M3 M4]).
      exists f', Gp'. replace (l + S (length r)) with (S l + length r) by lia.
      cbn [rev]. rewrite <- app_assoc. split; [exact HB'|].
      split; [exact E1|]. split; [lia|].
      rewrite EC in E3, M1, M2, M3, M4. cbn [unwinds blocks tags lab] in E3, M1, M2, M3, M4. split; [congruence|].
      split; [congruence|congruence|lia|fin].
Qed.

(** one special binding *)
Lemma let_special_step : forall is G fr c f Gp bnd s l x off r c' o u, building is G fr c f Gp bnd s l -> special x = true ->
  let_specials special ((x, off) :: r) c = Some (u, c', o) ->
  exists c2 o2, o = flush c ++ [SW (CLocal off); SBind x (depth c)] ++ o2 /\ let_specials special r c2 = Some (u, c', o2) /\
    building is G fr c2 (setb x Special f) Gp (x :: bnd) (S s) l /\
    c2 = mkCst None (depth c + 3) (lab c) (ids c2) (scope c) (blocks c) (tags c) (depth c :: unwinds c) (frames c2).
Proof.
  intros is G fr c f Gp bnd s l x off r c' o u [HI HO HN HF HK] HS H. cbn [let_specials] in H.
  step H v1 c1 o1 B1. known. step H v2 c2 o2 B2. known. step H v3 c3 o3 B3.
  apply bind_spe with (f := f) (r := is) in B3 as (s' & l' & fr' & E & D & -> & ->); [|exact HS|exact HI|cbn; rewrite HI; exact HO].
  cbn [frames flat pc] in E. rewrite HF in E. injection E as <- <- <-.
  eexists; eexists. split; [|split; [exact H|]].
  - unfold flush at 2. cbn [push flat pc]. unfold store_code, topexpr. cbn [push pc same assignment].
    rewrite depth_pc, depth_flat. replace (S (depth c) - 1) with (depth c) by lia. rewrite <- !app_assoc. reflexivity.
  - split; [split; auto; [apply okids_setb; [exact HO|tauto]|apply fok_spe; assumption]|].
    cbn [ids frames flat pc lab scope blocks tags unwinds]. rewrite depth_pc, depth_flat. replace (S (depth c) - 1) with (depth c) by lia. reflexivity.
Qed.
Lemma let_specials_ct : forall is G fr sp f Gp bnd s l c c' o u, building is G fr c f Gp bnd s l ->
  (forall x, In x (map fst sp) -> special x = true) -> let_specials special sp c = Some (u, c', o) ->
  exists f', building is G fr c' f' Gp (rev (map fst sp) ++ bnd) (s + length sp) l /\
    depth c' = depth c + 3 * length sp /\ lab c' = lab c /\ moved c c' o.
Proof.
  intros is G fr sp; induction sp as [|[x off] r IH]; intros f Gp bnd s l c c' o u HB HS H.
  - cbn [let_specials] in H. known. exists f. cbn [length map rev]. rewrite !Nat.add_0_r. split; [exact HB|]. split; [lia|]. split; [reflexivity|].
    split; auto. fin.
  - cbn [map fst] in HS.
    destruct (let_special_step _ _ _ _ _ _ _ _ _ _ _ _ _ _ _ HB (HS x (or_introl eq_refl)) H) as (c2 & o2 & -> & H2 & HB2 & EC).
    destruct (IH _ _ _ _ _ _ _ _ _ HB2 (fun y Hy => HS y (or_intror Hy)) H2) as (f' & HB' & E1 & E2 & [M1 M2 M3 M4]).
    exists f'. cbn [map rev fst length]. rewrite <- app_assoc. replace (s + S (length r)) with (S s + length r) by lia.
    split; [exact HB'|]. rewrite EC in *. cbn [lab blocks tags] in *. split; [rewrite E1; unfold depth at 1, pending; cbn [push count]; lia|].
    split; [exact E2|]. split; [congruence|congruence|lia|]. fin.
Qed.

Lemma letstar_step : forall is G fr c f Gp bnd s l x a r c' o u, building is G fr c f Gp bnd s l -> scope c = length is ->
  (forall y, In y (fv a) -> good (f :: is) (Gp ++ G) (length is) y) -> ct a -> plain special a = true ->
  letstar_bind special comp ((x, a) :: r) c = Some (u, c', o) ->
  exists v c1 o1 c2 o2 o3, comp a c = Some (v, c1, o1) /\ o = o1 ++ flush c1 ++ o2 ++ o3 /\ does (letfree a) c c1 o1 /\
    letstar_bind special comp r c2 = Some (u, c', o3) /\
    let off := depth c1 - 1 in
    if special x then
      o2 = [SW (CLocal off); SBind x off] /\ building is G fr c2 (setb x Special f) Gp (x :: bnd) (S s) l /\
      c2 = mkCst None (off + 3) (lab c1) (ids c2) (scope c) (blocks c1) (tags c1) (off :: unwinds c1) (frames c2)
    else
      o2 = [] /\ building is G fr c2 (setb x (InLocal off) f) ((x, InLocal off) :: Gp) (x :: bnd) s (S l) /\
      c2 = mkCst None (depth c1) (lab c1) (ids c2) (scope c) (blocks c1) (tags c1) (unwinds c1) (frames c2).
Proof.
  intros is G fr c f Gp bnd s l x a r c' o u [HI HO HN HF HK] HSC HG Hct HP H.
  assert (HA : pre c (Gp ++ G) (fv a) (letfree a)).
  { unfold pre, agr, level. rewrite HI, HSC. cbn [length]. replace (S (length is) - 1) with (length is) by lia.
    split; [split; [exact HG|right; exact HG]|]. split; [exact HO|discriminate]. }
  cbn [letstar_bind] in H. step H v1 c1 o1 B1. pose proof (Hct _ _ _ _ _ HP HA B1) as HD. pose proof HD as (K & _ & D).
  assert (I3 : ids c1 = f :: is) by (rewrite (keep_ids _ _ _ K); exact HI).
  assert (F3 : frames c1 = (s, l) :: fr) by (rewrite (kp_frames _ _ _ K); exact HF).
  assert (S3 : scope c1 = scope c).
  { destruct (proj2 (kp_srel _ _ _ K)) as [E|[_ E]]; [exact E|]. rewrite E, HSC. unfold level. rewrite HI. cbn [length]. lia. }
  step H v2 c2 o2 B2. known. step H v3 c3 o3 B3. exists v1, c1, o1, c3.
  destruct (special x) eqn:SX.
  - apply bind_spe with (f := f) (r := is) in B3 as (s' & l' & fr' & E & D3 & -> & ->); [|exact SX|exact I3|cbn; rewrite I3; exact HO].
    cbn [frames flat pc] in E. rewrite F3 in E. injection E as <- <- <-.
    eexists; eexists. split; [exact B1|]. split; [reflexivity|]. split; [exact HD|]. split; [exact H|].
    unfold store_code, topexpr. cbn [push flat pc same assignment count]. rewrite depth_flat. split; [reflexivity|].
    split; [split; auto; [apply okids_setb; [exact HO|tauto]|apply fok_spe; assumption]|].
    cbn [ids frames flat pc lab scope blocks tags unwinds]. rewrite S3. reflexivity.
  - apply bind_lex with (f := f) (r := is) in B3 as (s' & l' & fr' & E & -> & ->); [|exact SX|exact I3|cbn; rewrite I3; exact HO].
    cbn [frames flat pc] in E. rewrite F3 in E. injection E as <- <- <-.
    eexists; eexists. split; [exact B1|]. split; [reflexivity|]. split; [exact HD|]. split; [exact H|]. split; [reflexivity|].
    split; [split; auto; [apply okids_setb; [exact HO|split; [discriminate|congruence]]|apply fok_lex; [exact HK|exact SX|discriminate]]|].
    cbn [ids frames flat pc lab scope blocks tags unwinds push count]. rewrite S3. reflexivity.
Qed.

Definition star_fv (l : list exp) : list (nat * exp) -> list nat :=
  fix star (b : list (nat * exp)) : list nat := match b with [] => flat_map fv l | p :: r => fv (snd p) ++ minus (star r) [fst p] end.
Lemma fv_letstar : forall b l, fv (LetStar b l) = star_fv l b. Proof. reflexivity. Qed.

Lemma letstar_ct : forall is G fr body b f Gp bnd s l c c' o u, Forall (fun p => ct (snd p)) b ->
  building is G fr c f Gp bnd s l -> scope c = length is -> forallb (fun p => plain special (snd p)) b = true ->
  (forall x, In x (star_fv body b) -> In x bnd \/ good is G (length is - 1) x) ->
  letstar_bind special comp b c = Some (u, c', o) ->
  exists f' Gp' bnd' s' l', building is G fr c' f' Gp' bnd' s' l' /\ scope c' = length is /\
    (forall x, In x (flat_map fv body) -> In x bnd' \/ good is G (length is - 1) x) /\
    depth c' + 3 * s + l = depth c + 3 * s' + l' /\ moved c c' o.
Proof.
  intros is G fr body b; induction b as [|[x a] r IH]; intros f Gp bnd s l c c' o u HF HB HSC HP HG H.
  - cbn [letstar_bind] in H. known. exists f, Gp, bnd, s, l. split; [exact HB|]. split; [exact HSC|]. split; [exact HG|]. split; [lia|].
    split; auto. fin.
  - inversion HF as [|? ? Ha HF']; subst. cbn [snd] in Ha. cbn [forallb snd] in HP. apply andb_true_iff in HP as (HP1 & HP2).
    cbn [star_fv snd fst] in HG. fold (star_fv body) in HG.
    assert (HGa : forall y, In y (fv a) -> good (f :: is) (Gp ++ G) (length is) y).
    { intros y Hy. eapply good_inner; [exact (bu_fok _ _ _ _ _ _ _ _ _ HB)|exact (bu_nonempty _ _ _ _ _ _ _ _ _ HB)|]. apply HG, in_or_app; left; exact Hy. }
    destruct (letstar_step _ _ _ _ _ _ _ _ _ _ _ _ _ _ _ HB HSC HGa Ha HP1 H) as (v & c1 & o1 & c2 & o2 & o3 & B1 & -> & (K1 & F1 & D1) & H2 & X).
    pose proof (kp_lab _ _ _ K1) as L1. pose proof (kp_blocks _ _ _ K1) as EB. pose proof (kp_tags _ _ _ K1) as ET. cbv zeta in X.
    assert (HG2 : forall y, In y (star_fv body r) -> In y (x :: bnd) \/ good is G (length is - 1) y).
    { intros y Hy. destruct (Nat.eq_dec y x) as [->|N]; [left; left; reflexivity|].
      destruct (HG y) as [K|K]; [apply in_or_app; right; apply in_minus; split; [exact Hy|intros [E|[]]; congruence]|left; right; exact K|right; exact K]. }
    destruct (special x) eqn:SX; destruct X as (-> & HB2 & EC); (assert (SC2 : scope c2 = length is) by (rewrite EC; exact HSC)).
    + destruct (IH _ _ _ _ _ _ _ _ _ HF' HB2 SC2 HP2 HG2 H2) as (f' & Gp' & bnd' & s' & l' & HB' & SC' & HG' & DD & [M1 M2 M3 M4]).
      exists f', Gp', bnd', s', l'. split; [exact HB'|]. split; [exact SC'|]. split; [exact HG'|].
      rewrite EC in DD, M1, M2, M3, M4. unfold depth at 2, pending in DD. cbn [count push lab blocks tags] in DD, M1, M2, M3, M4.
      split; [lia|]. split; [congruence|congruence|lia|fin].
    + destruct (IH _ _ _ _ _ _ _ _ _ HF' HB2 SC2 HP2 HG2 H2) as (f' & Gp' & bnd' & s' & l' & HB' & SC' & HG' & DD & [M1 M2 M3 M4]).
      exists f', Gp', bnd', s', l'. split; [exact HB'|]. split; [exact SC'|]. split; [exact HG'|].
      rewrite EC in DD, M1, M2, M3, M4. unfold depth at 2, pending in DD. cbn [count push lab blocks tags] in DD, M1, M2, M3, M4.
      split; [lia|]. split; [congruence|congruence|lia|fin].
Qed.

(** the end of a let *)
Definition delete_code (s : nat) (c : cst) : list stmt :=
  if Nat.ltb 0 s then flush c ++ [SUnbind s] ++ store_code CW (flat c) else store_code CW c.
Lemma delete_inv : forall c u c' o, delete_frame c = Some (u, c', o) -> exists s l fr f is, frames c = (s, l) :: fr /\ ids c = f :: is /\
  0 < depth c /\ o = delete_code s c /\
  c' = mkCst (Some CW) (depth c - 1 - (3 * s + l)) (lab c) is (length is - 1) (blocks c) (tags c) (unwinds c) fr.
Proof.
  intros c u c' o H. unfold delete_frame in H. step H v1 c1 o1 B1. known.
  destruct (frames c) as [|[s l] fr] eqn:EF; [known|]. destruct (ids c) as [|f is] eqn:EI; [known|].
  exists s, l, fr, f, is. split; [reflexivity|]. split; [reflexivity|].
  step H v2 c2 o2 B2. unfold set_frames in B2. injection B2 as <- <- <-.
  step H v3 c3 o3 B3. step H v4 c4 o4 B4. unfold del_frame in B4. step B4 v5 c5 o5 B5. step B4 v6 c6 o6 B6. known.
  apply store_inv in B5 as (D5 & -> & ->). unfold discard in B6. step B6 v7 c7 o7 B7. known. cbn [push popped pc] in B6.
  step B6 v8 c8 o8 B8. unfold set_push in B8. injection B8 as <- <- <-. unfold set_count in B6. injection B6 as <- <- <-.
  step H v9 c9 o9 B9. unfold set_ids in B9. injection B9 as <- <- <-. unfold set_scope in H. injection H as <- <- <-.
  set (d := mkCst (push c) (count c) (lab c) (ids c) (scope c) (blocks c) (tags c) (unwinds c) fr) in *.
  assert (Dd : depth d = depth c) by reflexivity.
  assert (X : c3 = (if Nat.ltb 0 s then flat d else d) /\ o3 = (if Nat.ltb 0 s then flush c ++ [SUnbind s] else [])).
  { destruct (Nat.ltb 0 s); [|known; auto]. unfold unbind_special in B3. step B3 x1 x2 x3 x4. known. known. auto. }
  destruct X as (-> & ->). unfold delete_code.
  destruct (Nat.ltb 0 s).
  - rewrite depth_flat, Dd in D5. split; [exact D5|]. split.
    + rewrite ?app_nil_l. unfold flush at 2. cbn [push]. rewrite !app_nil_r. rewrite <- !app_assoc. reflexivity.
    + unfold depth at 1, pending. cbn. rewrite !Nat.add_0_r. unfold depth, pending. cbn. rewrite ?Nat.add_0_r. reflexivity.
  - rewrite Dd in D5. split; [exact D5|]. split.
    + rewrite ?app_nil_l. unfold flush. cbn [push]. rewrite !app_nil_r. reflexivity.
    + unfold depth at 1, pending. cbn. rewrite !Nat.add_0_r. reflexivity.
Qed.

Lemma cnt_delete : forall x s c, cnt x (delete_code s c) = 0.
Proof. intros x s c; unfold delete_code; destruct (Nat.ltb 0 s); rewrite ?cnt_app, ?cnt_flush, ?cnt_store; reflexivity. Qed.
Lemma create_inv : forall c u c' o, create_frame c = Some (u, c', o) -> o = [] /\
  c' = mkCst (push c) (count c) (lab c) ([] :: ids c) (length (ids c)) (blocks c) (tags c) (unwinds c) ((0, 0) :: frames c).
Proof. intros c u c' o H; cbn in H. injection H as <- <- <-. auto. Qed.
Lemma okids_nil : forall is, okids is -> okids ([] :: is).
Proof. intros is H f x i [<-|HI] E; [discriminate|apply (H f x i HI E)]. Qed.
Lemma created : forall c G X lf, pre c G X lf ->
  building (ids c) G (frames c) (mkCst (push c) (count c) (lab c) ([] :: ids c) (length (ids c)) (blocks c) (tags c) (unwinds c) ((0, 0) :: frames c)) [] [] [] 0 0.
Proof. intros c G X lf (_ & O & N). split; auto; [apply okids_nil; exact O|apply fok_nil]. Qed.

(** the body and the end, for a let *)
Lemma let_end : forall is G fr c f Gp bnd s l body u0 c' u o, building is G fr c f Gp bnd s l -> scope c = length is ->
  (forall x, In x (flat_map fv body) -> In x bnd \/ good is G (length is - 1) x) ->
  Forall ct body -> forallb (plain special) body = true ->
  (progn comp body ;; set_unwinds u0 ;; delete_frame) c = Some (u, c', o) ->
  exists v c1 o1, progn comp body c = Some (v, c1, o1) /\ o = o1 ++ delete_code s c1 /\ does (forallb letfree body) c c1 o1 /\
    pre c (Gp ++ G) (flat_map fv body) (forallb letfree body) /\
    c' = mkCst (Some CW) (depth c - (3 * s + l)) (lab c1) is (length is - 1) (blocks c) (tags c) u0 fr.
Proof.
  intros is G fr c f Gp bnd s l body u0 c' u o HB HSC HG HF HP H. destruct HB as [HI HO HN HFr HK].
  assert (HA : pre c (Gp ++ G) (flat_map fv body) (forallb letfree body)).
  { assert (GI : forall x, In x (flat_map fv body) -> good (f :: is) (Gp ++ G) (length is) x) by (intros x Hx; eapply good_inner; eauto).
    unfold pre, agr, level. rewrite HI, HSC. cbn [length]. replace (S (length is) - 1) with (length is) by lia.
    split; [split; [exact GI|right; exact GI]|]. split; [exact HO|discriminate]. }
  step H v1 c1 o1 B1. pose proof (progn_ct _ HF _ _ _ _ _ HP HA B1) as HD. pose proof HD as (K & _ & D).
  step H v2 c2 o2 B2. unfold set_unwinds in B2. injection B2 as <- <- <-.
  apply delete_inv in H as (s' & l' & fr' & f' & is' & E1 & E2 & D2 & -> & ->). cbn [frames ids] in E1, E2.
  rewrite (kp_frames _ _ _ K), HFr in E1. injection E1 as <- <- <-. rewrite (keep_ids _ _ _ K), HI in E2. injection E2 as <- <-.
  exists v1, c1, o1. split; [exact B1|]. split; [rewrite app_nil_l; reflexivity|]. split; [exact HD|]. split; [exact HA|].
  cbn [lab blocks tags unwinds]. rewrite (kp_blocks _ _ _ K), (kp_tags _ _ _ K).
  match goal with |- mkCst _ (?x - 1 - _) _ _ _ _ _ _ _ = _ => change x with (depth c1) end. rewrite D. f_equal. lia.
Qed.

Lemma good_level : forall c G X, pre c G X false -> forall x, In x X -> good (ids c) G (length (ids c) - 1) x.
Proof. intros c G X ((_ & [A|A]) & _) x Hx; [discriminate|]. apply A, Hx. Qed.

Lemma letstar_form : forall b l, Forall (fun p => ct (snd p)) b -> Forall ct l -> ct (LetStar b l).
Proof.
  intros b l HFb HFl c c' u o G HP HA H. pose proof HA as (_ & HO & HN). cbn [plain] in HP. apply andb_true_iff in HP as (HP1 & HP2).
  change (comp (LetStar b l)) with (c0 <- get ;; create_frame ;; letstar_bind special comp b ;; progn comp l ;; set_unwinds (unwinds c0) ;; delete_frame) in H.
  step H v1 c1 o1 B1. known. step H v2 c2 o2 B2. apply create_inv in B2 as (-> & ->).
  pose proof (created _ _ _ _ HA) as HB. step H v3 c3 o3 B3.
  assert (HG : forall x, In x (star_fv l b) -> In x [] \/ good (ids c) G (length (ids c) - 1) x) by (intros x Hx; right; eapply good_level; eauto).
  destruct (letstar_ct _ _ _ l _ _ _ _ _ _ _ _ _ _ HFb HB eq_refl HP1 HG B3) as (f & Gp & bnd & s & n & HB3 & SC3 & HG3 & D3 & [M1 M2 M3 M4]).
  destruct (let_end _ _ _ _ _ _ _ _ _ _ _ _ _ _ HB3 SC3 HG3 HFl HP2 H) as (v4 & c4 & o4 & B4 & -> & (K4 & F4 & D4) & _ & ->).
  cbn [lab blocks tags] in M1, M2, M3, M4. pose proof (kp_lab _ _ _ K4) as L4.
  split; [|split].
  - split; cbn [blocks tags unwinds frames lab]; auto; [|lia]. split; [reflexivity|]. right. split; reflexivity.
  - cbn [lab]. intro x. specialize (M4 x). specialize (F4 x). rewrite !app_nil_l, !cnt_app, cnt_delete. lia.
  - unfold depth at 1, pending. cbn [count push]. change (depth _) with (depth c) in D3 at 2. lia.
Qed.

Lemma filter_split : forall (A : Type) (p : A -> bool) l x, In x l -> In x (filter p l) \/ In x (filter (fun y => negb (p y)) l).
Proof. intros A p l x H. rewrite !filter_In. destruct (p x) eqn:E; [left; auto|right; auto]. Qed.

Lemma spe_special : forall b (sp : list (nat * nat)), map fst sp = rev (spenames b) -> forall x, In x (map fst sp) -> special x = true.
Proof. intros b sp E x Hx. rewrite E in Hx. apply in_rev in Hx. unfold spenames in Hx. apply filter_In in Hx. tauto. Qed.
Lemma body_bound : forall b sp (G : ctx) is (l : list exp) bnd, map fst (sp : list (nat * nat)) = rev (spenames b) ->
  (forall x, In x (minus (flat_map fv l) (map fst b)) -> good is G (length is - 1) x) ->
  bnd = rev (map fst sp) ++ rev (lexnames b) ++ [] ->
  forall x, In x (flat_map fv l) -> In x bnd \/ good is G (length is - 1) x.
Proof.
  intros b sp G is l bnd E HG -> x Hx. destruct (in_dec Nat.eq_dec x (map fst b)) as [HI|HI].
  - left. rewrite E, rev_involutive, app_nil_r. apply in_or_app. destruct (filter_split _ special _ _ HI) as [K|K]; [left; exact K|right].
    apply in_rev in K. exact K.
  - right. apply HG, in_minus. auto.
Qed.
Lemma let_form : forall b l, Forall (fun p => ct (snd p)) b -> Forall ct l -> ct (Let b l).
Proof.
  intros b l HFb HFl c c' u o G HP HA H. pose proof HA as (_ & HO & HN). rewrite plain_let in HP. apply andb_true_iff in HP as (HP1 & HP2).
  change (comp (Let b l)) with (c0 <- get ;; create_frame ;; sp <- let_inits special comp b [] ;; let_specials special sp ;;
    c1 <- get ;; set_scope (length (ids c1) - 1) ;; progn comp l ;; set_unwinds (unwinds c0) ;; delete_frame) in H.
  step H v1 c1 o1 B1. known. step H v2 c2 o2 B2. apply create_inv in B2 as (-> & ->).
  pose proof (created _ _ _ _ HA) as HB. step H sp c3 o3 B3.
  pose proof (good_level _ _ _ HA) as HG. cbn [fv] in HG.
  destruct (let_inits_ct _ _ _ _ [] _ _ _ _ _ _ _ _ _ _ HFb HB HP1 (fun x (K : In x []) => match K with end)
    (fun x Hx => HG x (in_or_app _ _ _ (or_introl Hx))) B3) as (f & Gp & HB3 & E3 & D3 & U3 & [M1 M2 M3 M4]).
  rewrite app_nil_r in E3. step H v4 c4 o4 B4.
  destruct (let_specials_ct _ _ _ _ _ _ _ _ _ _ _ _ _ HB3 (spe_special _ _ E3) B4) as (f4 & HB4 & D4 & L4 & [N1 N2 N3 N4]).
  step H v5 c5 o5 B5. known. step H v6 c6 o6 B6. unfold set_scope in B6. injection B6 as <- <- <-.
  pose proof HB4 as [I4 O4 NE4 F4 K4].
  assert (HB5 : building (ids c) G (frames c) (with_scope c4 (length (ids c4) - 1)) f4 Gp (rev (map fst sp) ++ rev (lexnames b) ++ []) (0 + length sp) (0 + length b))
    by (split; assumption).
  assert (SC5 : scope (with_scope c4 (length (ids c4) - 1)) = length (ids c)) by (cbn [scope with_scope]; rewrite I4; cbn [length]; lia).
  destruct (let_end _ _ _ _ _ _ _ _ _ _ _ _ _ _ HB5 SC5
    (body_bound _ _ _ _ _ _ E3 (fun x Hx => HG x (in_or_app _ _ _ (or_intror Hx))) eq_refl) HFl HP2 H) as (v7 & c7 & o7 & B7 & -> & (K7 & F7 & D7) & _ & ->).
  cbn [lab blocks tags with_scope] in *. pose proof (kp_lab _ _ _ K7) as L7. cbn [lab with_scope] in L7.
  split; [|split].
  - split; cbn [blocks tags unwinds frames lab]; try congruence; try lia. split; [reflexivity|]. right. split; reflexivity.
  - cbn [lab]. intro x. specialize (M4 x). specialize (F7 x). specialize (N4 x). cbn [lab with_scope] in F7.
    rewrite !app_nil_l, !cnt_app, cnt_delete. lia.
  - change (depth (with_scope c4 (length (ids c4) - 1))) with (depth c4). unfold depth at 1, pending. cbn [count push].
    change (depth _) with (depth c) in D3 at 2. lia.
Qed.

(** *** tagbody *)
Fixpoint cl (x : nat) (l : list nat) : nat := match l with [] => 0 | y :: r => (if Nat.eqb y x then 1 else 0) + cl x r end.
Definition tag_label (c : cst) (t : nat) : nat := match assq t (tags c) with Some (lb, _) => lb | None => 0 end.
Lemma enter_tags_inv : forall l fp c u c' o, enter_tags l fp c = Some (u, c', o) -> NoDup (tag_names l) -> o = [] /\
  push c' = push c /\ count c' = count c /\ ids c' = ids c /\ scope c' = scope c /\ blocks c' = blocks c /\ unwinds c' = unwinds c /\ frames c' = frames c /\
  lab c' = lab c + length (tag_names l) /\
  (forall t, ~ In t (tag_names l) -> assq t (tags c') = assq t (tags c)) /\
  map (fun t => assq t (tags c')) (tag_names l) = map (fun n => Some (n, fp)) (seq (S (lab c)) (length (tag_names l))).
Proof.
  induction l as [|[t|a] r IH]; intros fp c u c' o H N.
  - cbn [enter_tags] in H. known. cbn. repeat match goal with |- _ /\ _ => split end; auto; lia.
  - cbn [enter_tags] in H. change (tag_names (inl t :: r)) with (t :: tag_names r) in *. inversion N as [|? ? N1 N2]; subst.
    step H v1 c1 o1 B1. known. step H v2 c2 o2 B2. known. step H v3 c3 o3 B3. unfold set_tags in B3. injection B3 as <- <- <-.
    destruct (IH _ _ _ _ _ H N2) as (-> & E1 & E2 & E3 & E4 & E5 & E6 & E7 & E8 & E9 & E10). cbn [push count ids scope blocks unwinds frames lab tags with_lab] in *.
    split; [reflexivity|]. repeat (split; [assumption|]). split; [cbn [length]; lia|]. split.
    + intros y Hy. rewrite E9 by (intro K; apply Hy; right; exact K). cbn [assq]. destruct (Nat.eqb_spec t y) as [->|NE]; [exfalso; apply Hy; left; reflexivity|reflexivity].
    + cbn [map length seq]. rewrite E10. f_equal. rewrite E9 by exact N1. cbn [assq]. rewrite Nat.eqb_refl. reflexivity.
  - cbn [enter_tags] in H. change (tag_names (inr a :: r)) with (tag_names r) in *. apply (IH _ _ _ _ _ H N).
Qed.
Lemma items_ct : forall l, Forall (fun i => match i with inl _ => True | inr a => ct a end) l -> forall c c' u o G,
  forallb (fun i => match i with inl _ => true | inr a => plain special a end) l = true ->
  pre c G (flat_map (fun i => match i with inl _ => [] | inr a => fv a end) l) (forallb (fun i => match i with inl _ => true | inr a => letfree a end) l) ->
  items comp l c = Some (u, c', o) ->
  keep (forallb (fun i => match i with inl _ => true | inr a => letfree a end) l) c c' /\ depth c' = depth c /\
  forall x, exists k, cnt x o = cl x (map (tag_label c) (tag_names l)) + k /\ k <= 1 /\ (0 < k -> lab c < x <= lab c').
Proof.
  induction 1 as [|i r Hi HF IH]; intros c c' u o G HP HA H.
  - cbn [items] in H. known. split; [apply keep_refl|]. split; [reflexivity|]. intro x. exists 0. cbn. lia.
  - destruct i as [t|a].
    + cbn [items] in H. change (tag_names (inl t :: r)) with (t :: tag_names r). cbn [forallb flat_map app] in HP, HA |- *. rewrite app_nil_l in HA.
      step H v1 c1 o1 B1. known. step H v2 c2 o2 B2.
      destruct (assq t (tags c)) as [[lb off]|] eqn:E; [|known]. known.
      destruct (IH _ _ _ _ G HP (pre_ext _ (flat c) _ _ _ HA eq_refl eq_refl) H) as (K & D & F).
      split; [eapply keep_trans; [apply keep_pc|exact K]|]. split; [rewrite D; apply depth_flat|].
      intro x. destruct (F x) as (k & E1 & E2 & E3). exists k. cbn [map cl lab flat pc] in *. unfold tag_label at 1. rewrite E. rewrite app_nil_l, !cnt_app, cnt_flush. cbn [cnt]. rewrite E1.
      change (map (tag_label (flat c)) (tag_names r)) with (map (tag_label c) (tag_names r)). lia.
    + cbn [items] in H. change (tag_names (inr a :: r)) with (tag_names r). cbn [forallb flat_map] in HP, HA |- *.
      set (LF := letfree a && forallb (fun i => match i with inl _ => true | inr a0 => letfree a0 end) r) in *.
      step H v1 c1 o1 B1.
      destruct (Hi _ _ _ _ G (andb_l _ _ HP) (pre_incl _ _ _ _ _ _ HA (incl_appl _ (incl_refl _)) (andb_l _ _)) B1) as (K1 & F1 & D1).
      step H v2 c2 o2 B2. known.
      assert (K : keep LF c (popped c1)) by (eapply keep_trans; [eapply keep_weaken; [exact K1|apply andb_l]|apply keep_pc]).
      destruct (IH _ _ _ _ G (andb_r _ _ HP) (pre_keep _ _ _ _ _ _ _ HA K (incl_appr _ (incl_refl _)) (andb_r _ _)) H) as (K3 & D3 & F3).
      split; [eapply keep_trans; [exact K|eapply keep_weaken; [exact K3|apply andb_r]]|]. split; [dp; lia|].
      pose proof (kp_lab _ _ _ K1); pose proof (kp_lab _ _ _ K3). cbn [lab popped pc] in *.
      assert (ET : tag_label (popped c1) = tag_label c) by (unfold tag_label; cbn [tags popped pc]; rewrite (kp_tags _ _ _ K1); reflexivity).
      intro x. destruct (F3 x) as (k & E1 & E2 & E3). specialize (F1 x). exists (cnt x o1 + k). rewrite ET in E1. rewrite app_nil_l, !cnt_app, E1. lia.
Qed.
Lemma cl_seq : forall x n k, cl x (seq k n) <= 1 /\ (0 < cl x (seq k n) -> k <= x < k + n).
Proof.
  intros x n; induction n as [|n IH]; intro k; cbn [seq cl]; [lia|]. specialize (IH (S k)).
  destruct (Nat.eqb_spec k x); lia.
Qed.
Lemma distinct_nodup : forall l, distinct l = true -> NoDup l.
Proof.
  induction l as [|x r IH]; cbn [distinct]; intro H; constructor; apply andb_true_iff in H as (H1 & H2); [|auto].
  intro K. apply mem_in in K. rewrite K in H1. discriminate.
Qed.
Lemma tag_labels : forall c c' l fp, map (fun t => assq t (tags c')) (tag_names l) = map (fun n => Some (n, fp)) (seq (S (lab c)) (length (tag_names l))) ->
  map (tag_label c') (tag_names l) = seq (S (lab c)) (length (tag_names l)).
Proof.
  intros c c' l fp H. transitivity (map (fun o : option (nat * nat) => match o with Some (lb, _) => lb | None => 0 end) (map (fun t => assq t (tags c')) (tag_names l))).
  - rewrite map_map. reflexivity.
  - rewrite H, map_map. rewrite <- map_id. reflexivity.
Qed.
Lemma tagbody_form : forall l, Forall (fun i => match i with inl _ => True | inr a => ct a end) l -> ct (Tagbody l).
Proof.
  intros l HF c c' u o G HP HA H. cbn [plain] in HP. apply andb_true_iff in HP as (HP1 & HP2). apply distinct_nodup in HP1.
  change (comp (Tagbody l)) with (c0 <- get ;; fp <- offset_from_fp ;; enter_tags l fp ;; items comp l ;; load_const NIL ;; set_tags (tags c0)) in H.
  step H v1 c1 o1 B1. known. step H v2 c2 o2 B2. known. step H v3 c3 o3 B3.
  destruct (enter_tags_inv _ _ _ _ _ _ B3 HP1) as (-> & E1 & E2 & E3 & E4 & E5 & E6 & E7 & E8 & E9 & E10).
  step H v4 c4 o4 B4. cbn [fv letfree] in HA |- *.
  destruct (items_ct _ HF _ _ _ _ G HP2 (pre_ext _ c3 _ _ _ HA E3 E4) B4) as (K & D & F).
  step H v5 c5 o5 B5. known. unfold set_tags in H. injection H as <- <- <-.
  pose proof (kp_lab _ _ _ K) as L4. cbn [lab flat pc] in E8.
  assert (D3 : depth c3 = depth c) by (unfold depth at 1, pending; rewrite E1, E2; cbn; unfold depth; lia).
  split; [|split].
  - eapply keep_ext; [exact K|exact E3|exact E4|lia|reflexivity|reflexivity|cbn; lia|cbn|cbn|cbn|cbn]; try reflexivity.
    + rewrite (kp_blocks _ _ _ K), E5. reflexivity.
    + rewrite (kp_unwinds _ _ _ K), E6. reflexivity.
    + rewrite (kp_frames _ _ _ K), E7. reflexivity.
  - cbn [lab pc]. intro x. destruct (F x) as (k & X1 & X2 & X3). rewrite !cnt_app, !cnt_flush, X1. rewrite (tag_labels (flat c) _ _ _ E10).
    pose proof (cl_seq x (length (tag_names l)) (S (lab (flat c)))) as C. cbn [lab flat pc cnt] in *. lia.
  - unfold depth at 1, pending. cbn [count push pc]. lia.
Qed.

Lemma enter_block_inv : forall b c l c' o, enter_block b c = Some (l, c', o) -> l = S (lab c) /\ o = flush c /\
  c' = mkCst None (depth c) (S (lab c)) (ids c) (scope c) ((b, (S (lab c), depth c)) :: blocks c) (tags c) (unwinds c) (frames c).
Proof.
  intros b c l c' o H. unfold enter_block in H. step H v1 c1 o1 B1. known. step H v2 c2 o2 B2. known. step H v3 c3 o3 B3. known.
  step H v4 c4 o4 B4. unfold set_blocks in B4. injection B4 as <- <- <-. known. rewrite ?app_nil_r. auto.
Qed.
Lemma leave_block_inv : forall c u c' o, leave_block c = Some (u, c', o) -> o = [] /\
  c' = mkCst (push c) (count c) (lab c) (ids c) (scope c) (tl (blocks c)) (tags c) (unwinds c) (frames c).
Proof. intros c u c' o H. unfold leave_block in H. step H v1 c1 o1 B1. known. unfold set_blocks in H. injection H as <- <- <-. auto. Qed.
Definition unwind_code (need : bool) (k : nat) : list stmt := if need then [SUnwind k] else [].
Lemma unwind_inv : forall b k c u c' o, unwind_if b k c = Some (u, c', o) -> c' = c /\ o = unwind_code b k.
Proof. intros [|] k c u c' o H; unfold unwind_if in H; known; auto. Qed.
Lemma cnt_unwind : forall x b k, cnt x (unwind_code b k) = 0.
Proof. intros x [|] k; reflexivity. Qed.
Lemma set_count_inv : forall n c u c' o, set_count n c = Some (u, c', o) -> c' = pc c (push c) n /\ o = [].
Proof. intros n c u c' o H; unfold set_count in H; injection H as <- <- <-; auto. Qed.
Lemma return_from_inv : forall off n c u c' o, return_from off n c = Some (u, c', o) -> 0 < depth c /\ c' = pc c None (depth c) /\
  o = store_code CW c ++ unwind_code n off ++ [SLocal off CW].
Proof.
  intros off n c u c' o H. unfold return_from in H. step H v1 c1 o1 B1. apply store_inv in B1 as (X & -> & ->).
  step H v2 c2 o2 B2. apply unwind_inv in B2 as (-> & ->). step H v3 c3 o3 B3. known. step H v4 c4 o4 B4. known.
  apply set_count_inv in H as (-> & ->). split; [exact X|]. rewrite app_nil_l, app_nil_r. split; [|reflexivity].
  unfold popped, pc; cbn. f_equal. lia.
Qed.
Lemma go_inv : forall off n c u c' o, go_tag off n c = Some (u, c', o) -> c' = pc c (push c) (S (count c)) /\ o = unwind_code n off.
Proof.
  intros off n c u c' o H. unfold go_tag in H. step H v1 c1 o1 B1. apply unwind_inv in B1 as (-> & ->). step H v2 c2 o2 B2. known.
  apply set_count_inv in H as (-> & ->). rewrite app_nil_l, app_nil_r. auto.
Qed.
Lemma call_inv : forall f n c u c' o, call_ f n c = Some (u, c', o) -> c' = pc c (Some CW) (depth c - n) /\ o = flush c ++ [SCall f n (depth c - n)].
Proof.
  intros f n c u c' o H. unfold call_ in H. step H v1 c1 o1 B1. known. step H v2 c2 o2 B2. known. step H v3 c3 o3 B3. known.
  step H v4 c4 o4 B4. cbn in B4. injection B4 as <- <- <-. known. cbn. rewrite ?app_nil_l, ?app_nil_r. unfold flush at 2; cbn. rewrite ?app_nil_r. auto.
Qed.
Lemma check_inv : forall c u c' o, check_cons_nil c = Some (u, c', o) -> 0 < depth c /\ c' = pc c (Some CW) (depth c - 1) /\
  o = store_code CW c ++ [SCheckList].
Proof.
  intros c u c' o H. unfold check_cons_nil in H. step H v1 c1 o1 B1. known. step H v2 c2 o2 B2.
  assert (X : store CW c = Some (v2, c2, o2)).
  { unfold store. unfold bind at 1, get. destruct (push c) as [[]|] eqn:E; cbn [same assignment]; match goal with |- match ?X with _ => _ end = _ => replace X with (Some (v2, c2, o2)) by (symmetry; exact B2) end; reflexivity. }
  apply store_inv in X as (L & -> & ->). step H v3 c3 o3 B3. known. known. rewrite app_nil_l. split; [exact L|]. split; [|].
  - unfold pc, popped, depth, pending; cbn. f_equal. lia.
  - unfold flush; cbn. rewrite app_nil_r. reflexivity.
Qed.
Lemma carcdr_inv : forall k c u c' o, (check_cons_nil ;; e <- pop ;; push_ (k e)) c = Some (u, c', o) -> 0 < depth c /\ c' = pc c (Some (k CW)) (depth c - 1) /\
  o = store_code CW c ++ [SCheckList].
Proof.
  intros k c u c' o H. step H v1 c1 o1 B1. apply check_inv in B1 as (L & -> & ->). step H v2 c2 o2 B2.
  apply pop_inv in B2 as (L2 & -> & -> & ->). known. split; [exact L|]. rewrite depth_pc in *. unfold topexpr, popped, flush; cbn. rewrite app_nil_r. split; [|reflexivity].
  unfold pc, depth, pending; cbn. f_equal. lia.
Qed.
Lemma nullx_inv : forall c u c' o, nullx c = Some (u, c', o) -> 0 < depth c /\ c' = pc c (Some (CNull (topexpr c))) (depth c - 1) /\ o = [].
Proof.
  intros c u c' o H. unfold nullx in H. step H v1 c1 o1 B1. apply pop_inv in B1 as (L & -> & -> & ->). known. split; [exact L|].
  split; [|reflexivity]. unfold pc, popped, depth, pending; cbn. f_equal. lia.
Qed.
Lemma eqx_inv : forall c u c' o, eqx c = Some (u, c', o) -> 1 < depth c /\ c' = pc c (Some (CEq (topexpr c) (CLocal (depth c - 2)))) (depth c - 2) /\ o = [].
Proof.
  intros c u c' o H. unfold eqx in H. step H v1 c1 o1 B1. step H v2 c2 o2 B2. destruct (pop2_inv _ _ _ _ _ _ _ B1 B2) as (L & -> & -> & -> & -> & ->).
  known. split; [exact L|]. split; [|reflexivity]. unfold pc, popped, depth, pending; cbn. f_equal. lia.
Qed.
Lemma tcp_inv : forall p c u c' o, type_check_predicate p c = Some (u, c', o) -> 0 < depth c /\ c' = pc c (Some (CIs p)) (depth c - 1) /\ o = store_code CW c.
Proof.
  intros p c u c' o H. unfold type_check_predicate in H. step H v1 c1 o1 B1. apply store_inv in B1 as (L & -> & ->). known. split; [exact L|].
  unfold flush; cbn. rewrite app_nil_r. split; [|reflexivity]. unfold pc, popped, depth, pending; cbn. f_equal. lia.
Qed.
Lemma null_con : forall a, ctcon a -> ctcon (Null a).
Proof. intros a Ha tl nl c c' u o G HP HA H. change (evcon comp (Null a) tl nl) with (evcon comp a nl tl) in H. eapply Ha; eauto. Qed.

(** *** All forms *)
Theorem comp_static : forall e, ct e /\ ctcon e.
Proof.
  assert (D : forall e, ct e -> (forall ev tl nl, evcon ev e tl nl = (ev e ;; conditional_jump tl nl)) -> ct e /\ ctcon e).
  { intros e H E. split; [exact H|]. intros tl nl c c' u o G HP HA B. rewrite E in B. eapply con_default; eauto. }
  assert (FL : forall l, Forall (fun e => ct e /\ ctcon e) l -> Forall ct l) by (intros l; apply Forall_impl; tauto).
  assert (FC : forall l, Forall (fun e => ct e /\ ctcon e) l -> Forall ctcon l) by (intros l; apply Forall_impl; tauto).
  assert (FB : forall l : list (nat * exp), Forall (fun p => ct (snd p) /\ ctcon (snd p)) l -> Forall (fun p => ct (snd p)) l) by (intros l; apply Forall_impl; tauto).
  induction e using exp_full.
  - apply D; [|reflexivity]. intros c c' u o G HP HA H. change (comp (Const v)) with (load_const v) in H. known.
    split; [apply keep_pc|]. split; [fin|apply depth_pc].
  - apply D; [|reflexivity]. intros c c' u o G HP HA H. change (comp (Var x)) with (load_var special x) in H.
    apply load_var_inv with (G := G) in H as (e & -> & -> & _); [|apply (good_keep _ _ _ _ _ _ HA (keep_refl _ _)); left; reflexivity].
    split; [apply keep_pc|]. split; [fin|apply depth_pc].
  - apply D; [apply setq_ct; auto|reflexivity].
  - apply D; [|reflexivity]. intros c c' u o G HP HA B. change (comp (Progn l)) with (progn comp l) in B. eapply progn_ct; eauto.
  - apply D; [|reflexivity]. intros c c' u o G HP HA H. destruct IHe1 as [_ H1], IHe2 as [H2 _], IHe3 as [H3 _].
    change (comp (If e1 e2 e3)) with (elselab <- genlabel ;; exitlab <- genlabel ;; evcon comp e1 None (Some elselab) ;;
      comp e2 ;; jump exitlab ;; adjust 1 ;; label elselab ;; comp e3 ;; label exitlab) in H.
    pose proof (keep_refl (letfree (If e1 e2 e3)) c) as K.
    step H v1 c1 o1 B1. known. mov K (with_lab c (S (lab c))). step H v2 c2 o2 B2. known.
    cbn [lab with_lab] in *. mov K (with_lab (with_lab c (S (lab c))) (S (S (lab c)))).
    step H v3 c3 o3 B3. adv0 H1 HA K B3 F3 P3 D3. step H v4 c4 o4 B4. adv H2 HA K B4 F4 D4.
    step H v5 c5 o5 B5. known. mov K (flat c4). step H v6 c6 o6 B6. known. mov K (pc (flat c4) (push (flat c4)) (count (flat c4) - 1)).
    step H v7 c7 o7 B7. known. mov K (flat (pc (flat c4) (push (flat c4)) (count (flat c4) - 1))). step H v8 c8 o8 B8. adv H3 HA K B8 F8 D8.
    known. mov K (flat c8). split; [exact K|].
    assert (D3' : depth c3 = depth c) by (unfold depth at 1, pending; rewrite P3, D3, !depth_lab; lia).
    split; [fin|].
    assert (X7 : depth (flat (pc (flat c4) (push (flat c4)) (count (flat c4) - 1))) = depth c) by (dp; cbn [count flat pc]; lia).
    rewrite depth_flat, D8, X7. reflexivity.
  - apply D; [|reflexivity]. intros c c' u o G HP HA B.
    change (comp (Cond l)) with (exit <- genlabel ;; cond comp l exit ;; load_const NIL ;; label exit) in B.
    assert (HF : Forall (fun p => ct (fst p) /\ ctcon (fst p) /\ Forall ct (snd p)) l).
    { eapply Forall_impl; [|exact H]. cbn. intros [p q] ((A1 & A2) & A3). auto. }
    step B v1 c1 o1 B1. known. step B v2 c2 o2 B2.
    destruct (cond_ct _ _ HF _ _ _ _ G HP (pre_ext _ (with_lab c (S (lab c))) _ _ _ HA eq_refl eq_refl) B2) as (K2 & F2 & D2).
    pose proof (kp_lab _ _ _ K2). step B v3 c3 o3 B3. known. known. cbn [lab with_lab] in *. rewrite depth_lab in D2.
    assert (K : keep (letfree (Cond l)) c c2) by (eapply keep_trans; [|exact K2]; apply keep_lab; cbn; lia).
    mov K (pc c2 (Some (CConst NIL)) (depth c2)). mov K (flat (pc c2 (Some (CConst NIL)) (depth c2))).
    split; [exact K|]. split; [fin|]. dp. lia.
  - assert (HC : ct (And l)).
    { intros c c' u o G HP HA B. change (comp (And l)) with (exit <- genlabel ;; and_ comp l exit ;; label exit) in B.
      step B v1 c1 o1 B1. known. step B v2 c2 o2 B2. known. pose proof (keep_refl (letfree (And l)) c) as K.
      mov K (with_lab c (S (lab c))). cbn [fv letfree plain] in *.
      destruct (and_ct _ _ (FL _ H) _ _ _ _ G HP (pre_ext _ (with_lab c (S (lab c))) _ _ _ HA eq_refl eq_refl) B2) as (K2 & F2 & D2).
      pose proof (kp_lab _ _ _ K2) as L2. pose proof (keep_trans _ _ _ _ K K2) as K3. mov K3 (flat c2). split; [exact K3|]. split; [fin|dp; lia]. }
    destruct l as [|a r]; [apply D; [exact HC|reflexivity]|split; [exact HC|apply and_con; [auto|discriminate]]].
  - assert (HC : ct (Or l)).
    { intros c c' u o G HP HA B. change (comp (Or l)) with (exit <- genlabel ;; or_ comp l exit ;; label exit) in B.
      step B v1 c1 o1 B1. known. step B v2 c2 o2 B2. known. pose proof (keep_refl (letfree (Or l)) c) as K.
      mov K (with_lab c (S (lab c))). cbn [fv letfree plain] in *.
      destruct (or_ct _ _ (FL _ H) _ _ _ _ G HP (pre_ext _ (with_lab c (S (lab c))) _ _ _ HA eq_refl eq_refl) B2) as (K2 & F2 & D2).
      pose proof (kp_lab _ _ _ K2) as L2. pose proof (keep_trans _ _ _ _ K K2) as K3. mov K3 (flat c2). split; [exact K3|]. split; [fin|dp; lia]. }
    destruct l as [|a r]; [apply D; [exact HC|reflexivity]|split; [exact HC|apply or_con; [auto|discriminate]]].
  - apply D; [|reflexivity]. intros c c' u o G HP HA B.
    change (comp (While e l)) with (whilent <- genlabel ;; whilexit <- genlabel ;; whileblock <- enter_block 0 ;;
      label whilent ;; evcon comp e None (Some whilexit) ;; progn comp l ;; discard 1 ;; jump whilent ;;
      label whilexit ;; load_const NIL ;; label whileblock ;; leave_block) in B.
    step B v1 c1 o1 B1. known. step B v2 c2 o2 B2. known. cbn [lab with_lab] in *.
    step B v3 c3 o3 B3. apply enter_block_inv in B3 as (-> & -> & ->).
    match type of B with bind _ _ ?C = _ => set (cb := C) in * end.
    assert (HAb : pre cb G (fv (While e l)) (letfree (While e l))) by (apply (pre_ext c); [exact HA|reflexivity|reflexivity]).
    pose proof (keep_refl (letfree (While e l)) cb) as K. assert (EB : blocks cb = (0, (S (S (S (lab c))), depth c)) :: blocks c) by reflexivity.
    assert (EL : lab cb = S (S (S (lab c)))) by reflexivity. assert (ED : depth cb = depth c) by (unfold depth, pending; cbn; unfold depth, pending; cbn; lia).
    destruct IHe as [_ He].
    assert (HL : ct (Progn l)) by (intros d d' u' o' G' X1 X2 X3; change (comp (Progn l)) with (progn comp l) in X3; eapply progn_ct; eauto).
    step B v4 c4 o4 B4. known. mov K (flat cb). step B v5 c5 o5 B5. adv0 He HAb K B5 F5 P5 D5.
    step B v6 c6 o6 B6. change (progn comp l) with (comp (Progn l)) in B6. adv HL HAb K B6 F6 D6.
    step B v7 c7 o7 B7. known. mov K (popped c6). step B v8 c8 o8 B8. known. mov K (flat (popped c6)).
    step B v9 c9 o9 B9. known. mov K (flat (flat (popped c6))). step B v10 c10 o10 B10. known. set (ce := flat (flat (popped c6))) in *.
    mov K (pc ce (Some (CConst NIL)) (depth ce)). step B v11 c11 o11 B11. known. mov K (flat (pc ce (Some (CConst NIL)) (depth ce))).
    apply leave_block_inv in B as (-> & ->).
    assert (D5' : depth c5 = depth c) by (unfold depth at 1, pending; rewrite P5, D5; dp; lia).
    split; [|split].
    + eapply keep_ext; [exact K|reflexivity|reflexivity|lia|reflexivity|reflexivity|reflexivity|..]; cbn [blocks tags unwinds frames].
      * rewrite (kp_blocks _ _ _ K), EB. reflexivity.
      * rewrite (kp_tags _ _ _ K). reflexivity.
      * rewrite (kp_unwinds _ _ _ K). reflexivity.
      * rewrite (kp_frames _ _ _ K). reflexivity.
    + cbn [lab]. pose proof (kp_lab _ _ _ K). subst ce. fin.
    + change (depth (flat (pc ce (Some (CConst NIL)) (depth ce))) = S (depth c)). subst ce. dp. lia.
  - apply D; [apply let_form; auto|reflexivity].
  - apply D; [apply letstar_form; auto|reflexivity].
  - apply D; [|reflexivity]. intros c c' u o G HP HA B.
    change (comp (Block n l)) with (lb <- enter_block n ;; progn comp l ;; label lb ;; leave_block) in B.
    step B v1 c1 o1 B1. apply enter_block_inv in B1 as (-> & -> & ->).
    match type of B with bind _ _ ?C = _ => set (cb := C) in * end.
    assert (HAb : pre cb G (fv (Block n l)) (letfree (Block n l))) by (apply (pre_ext c); [exact HA|reflexivity|reflexivity]).
    pose proof (keep_refl (letfree (Block n l)) cb) as K. assert (EB : blocks cb = (n, (S (lab c), depth c)) :: blocks c) by reflexivity.
    assert (EL : lab cb = S (lab c)) by reflexivity. assert (ED : depth cb = depth c) by (unfold depth, pending; cbn; unfold depth, pending; cbn; lia).
    assert (HL : ct (Progn l)) by (intros d d' u' o' G' X1 X2 X3; change (comp (Progn l)) with (progn comp l) in X3; eapply progn_ct; eauto).
    step B v6 c6 o6 B6. change (progn comp l) with (comp (Progn l)) in B6. adv HL HAb K B6 F6 D6.
    step B v11 c11 o11 B11. known. mov K (flat c6). apply leave_block_inv in B as (-> & ->).
    split; [|split].
    + eapply keep_ext; [exact K|reflexivity|reflexivity|lia|reflexivity|reflexivity|reflexivity|..]; cbn [blocks tags unwinds frames].
      * rewrite (kp_blocks _ _ _ K), EB. reflexivity.
      * rewrite (kp_tags _ _ _ K). reflexivity.
      * rewrite (kp_unwinds _ _ _ K). reflexivity.
      * rewrite (kp_frames _ _ _ K). reflexivity.
    + cbn [lab]. pose proof (kp_lab _ _ _ K). fin.
    + change (depth (flat c6) = S (depth c)). dp. lia.
  - apply D; [|reflexivity]. intros c c' u o G HP HA B.
    change (comp (ReturnFrom n e)) with (comp e ;; c <- get ;; match assq n (blocks c) with
      | Some (lb, off) => return_from off (need_unwind c off) ;; jump lb | None => err end) in B.
    pose proof (keep_refl (letfree (ReturnFrom n e)) c) as K. destruct IHe as [He _]. step B v1 c1 o1 B1. adv He HA K B1 F1 D1.
    step B v2 c2 o2 B2. known. destruct (assq n (blocks c1)) as [[lb off]|]; [|known].
    step B v3 c3 o3 B3. apply return_from_inv in B3 as (X3 & -> & ->). known.
    mov K (pc c1 None (depth c1)). mov K (flat (pc c1 None (depth c1))).
    split; [exact K|]. split; [|dp; cbn in *; lia]. cbn [lab flat pc]. intro x. specialize (F1 x). rewrite !cnt_app, cnt_flush, cnt_store, cnt_unwind. cbn. lia.
  - apply D; [apply tagbody_form|reflexivity]. eapply Forall_impl; [|exact H]. cbn. intros [t|a] X; tauto.
  - apply D; [|reflexivity]. intros c c' u o G HP HA B.
    change (comp (Go t)) with (c <- get ;; match assq t (tags c) with
      | Some (lb, off) => go_tag off (need_unwind c off) ;; jump lb | None => err end) in B.
    step B v2 c2 o2 B2. known. destruct (assq t (tags c)) as [[lb off]|]; [|known].
    step B v3 c3 o3 B3. apply go_inv in B3 as (-> & ->). known. pose proof (keep_refl (letfree (Go t)) c) as K.
    mov K (pc c (push c) (S (count c))). mov K (flat (pc c (push c) (S (count c)))).
    split; [exact K|]. split; [|dp; unfold depth, pending; cbn; lia]. intro x. rewrite !cnt_app, cnt_flush, cnt_unwind. cbn. lia.
  - apply D; [|reflexivity]. intros c c' u o G HP HA B. change (comp (Call f l)) with (iter comp l ;; call_ f (length l)) in B.
    step B v1 c1 o1 B1. destruct (iter_ct _ (FL _ H) _ _ _ _ G HP HA B1) as (K & F & D1). apply call_inv in B as (-> & ->).
    change (letfree (Call f l)) with (forallb letfree l). pose proof (kp_lab _ _ _ K).
    mov K (pc c1 (Some CW) (depth c1 - length l)). split; [exact K|]. split; [|dp; lia]. fin.
  - destruct IHe as [He Hc]. split; [|apply null_con; exact Hc]. intros c c' u o G HP HA B. change (comp (Null e)) with (comp e ;; nullx) in B.
    pose proof (keep_refl (letfree (Null e)) c) as K. step B v1 c1 o1 B1. adv He HA K B1 F1 D1. apply nullx_inv in B as (L1 & -> & ->).
    mov K (pc c1 (Some (CNull (topexpr c1))) (depth c1 - 1)). split; [exact K|]. split; [fin|dp; lia].
  - destruct IHe1 as [H1 _], IHe2 as [H2 _]. split; [|apply eq_con; assumption]. intros c c' u o G HP HA B. change (comp (Eq e1 e2)) with (comp e1 ;; comp e2 ;; eqx) in B.
    pose proof (keep_refl (letfree (Eq e1 e2)) c) as K. step B v1 c1 o1 B1. adv H1 HA K B1 F1 D1. step B v2 c2 o2 B2. adv H2 HA K B2 F2 D2.
    apply eqx_inv in B as (L2 & -> & ->).
    mov K (pc c2 (Some (CEq (topexpr c2) (CLocal (depth c2 - 2)))) (depth c2 - 2)). split; [exact K|]. split; [fin|dp; lia].
  - apply D; [|reflexivity]. destruct IHe as [He Hc]. intros c c' u o G HP HA B. change (comp (Car e)) with (comp e ;; (check_cons_nil ;; x <- pop ;; push_ (CCar x))) in B.
    pose proof (keep_refl (letfree (Car e)) c) as K. step B v1 c1 o1 B1. adv He HA K B1 F1 D1. apply carcdr_inv in B as (L1 & -> & ->).
    mov K (pc c1 (Some (CCar CW)) (depth c1 - 1)). split; [exact K|]. split; [fin|dp; lia].
  - apply D; [|reflexivity]. destruct IHe as [He Hc]. intros c c' u o G HP HA B. change (comp (Cdr e)) with (comp e ;; (check_cons_nil ;; x <- pop ;; push_ (CCdr x))) in B.
    pose proof (keep_refl (letfree (Cdr e)) c) as K. step B v1 c1 o1 B1. adv He HA K B1 F1 D1. apply carcdr_inv in B as (L1 & -> & ->).
    mov K (pc c1 (Some (CCdr CW)) (depth c1 - 1)). split; [exact K|]. split; [fin|dp; lia].
  - destruct IHe as [He Hc]. split; [|apply is_con; exact He]. intros c c' u o G HP HA B. change (comp (Is p e)) with (comp e ;; type_check_predicate p) in B.
    pose proof (keep_refl (letfree (Is p e)) c) as K. step B v1 c1 o1 B1. adv He HA K B1 F1 D1. apply tcp_inv in B as (L1 & -> & ->).
    mov K (pc c1 (Some (CIs p)) (depth c1 - 1)). split; [exact K|]. split; [fin|dp; lia].
Qed.
(** *** The compiler succeeds when every return-from and every go has its place *)
Definition ok {A : Type} (m : M A) (c : cst) : Prop := exists r, m c = Some r.
Lemma ok_bind : forall A B (m : M A) (k : A -> M B) c, ok m c -> (forall a c1 o1, m c = Some (a, c1, o1) -> ok (k a) c1) -> ok (bind m k) c.
Proof. intros A B m k c ([[a c1] o1] & H) HK. destruct (HK a c1 o1 H) as ([[b c2] o2] & H2). unfold ok, bind. rewrite H, H2. eauto. Qed.
Lemma ok_pop : forall c, 0 < depth c -> ok pop c.
Proof. intros c H. unfold ok, pop, bind, get, depth, pending in *. destruct (push c); [cbn; eauto|]. destruct (count c); [lia|cbn; eauto]. Qed.
Lemma ok_store : forall d c, 0 < depth c -> ok (store d) c.
Proof.
  intros d c H. unfold store. apply ok_bind; [unfold ok, get; eauto|]. intros a c1 o1 B. known. destruct (match push c with Some e => same e d | None => false end); [unfold ok, set_push; eauto|].
  apply ok_bind; [apply ok_pop; exact H|]. intros. unfold ok, emit. eauto.
Qed.
Lemma ok_clear : forall c, ok clearpush c. Proof. intro c. unfold ok. rewrite clearpush_eq. eauto. Qed.
Lemma ok_push : forall e c, ok (push_ e) c. Proof. intros e c. unfold ok. rewrite push_eq. eauto. Qed.
Lemma ok_const : forall v c, ok (load_const v) c. Proof. intros; apply ok_push. Qed.
Lemma ok_local : forall v c, ok (load_local v) c. Proof. intros; apply ok_push. Qed.
Lemma ok_arg : forall v c, ok (load_arg v) c. Proof. intros; apply ok_push. Qed.
Lemma ok_emit : forall s c, ok (emit s) c. Proof. unfold ok, emit; eauto. Qed.
Lemma ok_get : forall c, ok get c. Proof. unfold ok, get; eauto. Qed.
Lemma ok_ret : forall A (a : A) c, ok (ret a) c. Proof. unfold ok, ret; eauto. Qed.
Lemma ok_count : forall n c, ok (set_count n) c. Proof. unfold ok, set_count; eauto. Qed.
Lemma ok_gen : forall c, ok genlabel c. Proof. unfold ok, genlabel; eauto. Qed.
Lemma ok_label : forall l c, ok (label l) c. Proof. intros; apply ok_bind; [apply ok_clear|intros; apply ok_emit]. Qed.
Lemma ok_jump : forall l c, ok (jump l) c. Proof. intros; apply ok_bind; [apply ok_clear|intros; apply ok_emit]. Qed.
Lemma ok_offset : forall c, ok offset_from_fp c.
Proof. intro c; apply ok_bind; [apply ok_clear|intros; apply ok_bind; [apply ok_get|intros; apply ok_ret]]. Qed.
Lemma ok_dupe : forall c, ok dupe c.
Proof.
  intro c. apply ok_bind; [apply ok_get|]. intros a c1 o1 _. assert (X : ok (clearpush ;; c <- get ;; push_ (CLocal (count c - 1))) c1)
    by (apply ok_bind; [apply ok_clear|intros; apply ok_bind; [apply ok_get|intros; apply ok_push]]).
  destruct (push a) as [[]|]; try exact X. apply ok_push.
Qed.
Lemma ok_discard : forall n c, ok (discard n) c. Proof. intros n c. unfold ok, discard, bind, get, set_push, set_count. eauto. Qed.
Lemma ok_adjust : forall n c, ok (adjust n) c. Proof. intros n c. unfold ok, adjust, bind, get, set_count. eauto. Qed.
Lemma ok_enter_block : forall b c, ok (enter_block b) c.
Proof. intros b c. apply ok_bind; [apply ok_offset|]. intros. apply ok_bind; [apply ok_gen|]. intros. unfold ok, bind, get, set_blocks, ret. eauto. Qed.
Lemma ok_leave_block : forall c, ok leave_block c. Proof. intro c. unfold ok, leave_block, bind, get, set_blocks. eauto. Qed.
Lemma ok_call : forall f n c, ok (call_ f n) c.
Proof. intros f n c. apply ok_bind; [apply ok_clear|]. intros. apply ok_bind; [apply ok_get|]. intros. apply ok_bind; [apply ok_emit|]. intros. apply ok_bind; [apply ok_discard|]. intros. apply ok_push. Qed.
Lemma ok_unwind : forall b k c, ok (unwind_if b k) c. Proof. intros [|] k c; [apply ok_emit|apply ok_ret]. Qed.
Lemma ok_go : forall k b c, ok (go_tag k b) c.
Proof. intros. apply ok_bind; [apply ok_unwind|]. intros. apply ok_bind; [apply ok_get|]. intros. apply ok_count. Qed.
Lemma ok_return_from : forall k b c, 0 < depth c -> ok (return_from k b) c.
Proof.
  intros k b c H. apply ok_bind; [apply ok_store, H|]. intros. apply ok_bind; [apply ok_unwind|]. intros. apply ok_bind; [apply ok_emit|]. intros.
  apply ok_bind; [apply ok_get|]. intros. apply ok_count.
Qed.
Lemma ok_check : forall c, 0 < depth c -> ok check_cons_nil c.
Proof.
  intros c H. apply ok_bind; [apply ok_get|]. intros a c1 o1 B. known. apply ok_bind.
  - assert (X : ok (e <- pop ;; emit (SW e)) c) by (apply ok_bind; [apply ok_pop, H|intros; apply ok_emit]). destruct (push c) as [[]|]; try exact X. unfold ok, set_push. eauto.
  - intros. apply ok_bind; [apply ok_emit|]. intros. apply ok_push.
Qed.
Lemma ok_carcdr : forall k c, 0 < depth c -> ok (check_cons_nil ;; e <- pop ;; push_ (k e)) c.
Proof.
  intros k c H. apply ok_bind; [apply ok_check, H|]. intros a c1 o1 B. apply check_inv in B as (_ & -> & _). apply ok_bind; [apply ok_pop; rewrite depth_pc; lia|]. intros. apply ok_push.
Qed.
Lemma ok_if_nil : forall l c, 0 < depth c -> ok (if_nil l) c. Proof. intros l c H. apply ok_bind; [apply ok_pop, H|]. intros. apply ok_emit. Qed.
Lemma ok_if_t : forall l c, 0 < depth c -> ok (if_t l) c. Proof. intros l c H. apply ok_bind; [apply ok_pop, H|]. intros. apply ok_emit. Qed.
Lemma ok_pop2 : forall A (k : cexpr -> cexpr -> M A) c, 1 < depth c -> (forall a b d, ok (k a b) d) -> ok (a <- pop ;; b <- pop ;; k a b) c.
Proof.
  intros A k c H HK. apply ok_bind; [apply ok_pop; lia|]. intros a c1 o1 B. apply pop_inv in B as (_ & -> & -> & ->). apply ok_bind; [apply ok_pop; rewrite depth_popped; lia|]. intros. apply HK.
Qed.
Lemma ok_variable : forall x c G, good (ids c) G (scope c) x -> ok (variable special x) c.
Proof.
  intros x c G H. unfold variable. apply ok_bind; [apply ok_get|]. intros a c1 o1 B. known. rewrite lk_get. unfold good in H. destruct (lk (ids c) (scope c) x); [apply ok_ret|].
  destruct (special x); [apply ok_ret|]. destruct H as (i & _ & _ & H). discriminate.
Qed.
Lemma ok_load_var : forall x c G, good (ids c) G (scope c) x -> ok (load_var special x) c.
Proof. intros x c G H. apply ok_bind; [eapply ok_variable, H|]. intros [|n|n] c1 o1 B; apply ok_push. Qed.
Lemma ok_store_var : forall x c G, good (ids c) G (scope c) x -> 0 < depth c -> ok (store_var special x) c.
Proof.
  intros x c G H HD. apply ok_bind; [eapply ok_variable, H|]. intros i c1 o1 B. destruct (variable_inv _ _ _ _ _ _ H B) as (-> & -> & _). destruct i as [|n|n]; [|apply ok_store, HD..].
  apply ok_bind; [apply ok_pop, HD|]. intros. apply ok_emit.
Qed.
Lemma ok_set_binding : forall x i c, ids c <> [] -> ok (set_binding x i) c.
Proof. intros x i c H. unfold set_binding. apply ok_bind; [apply ok_get|]. intros a c1 o1 B. known. destruct (ids c) as [|f r]; [congruence|]. destruct (assq x f); unfold ok, set_ids; eauto. Qed.
Lemma ok_add_special : forall c, frames c <> [] -> ok add_special c.
Proof. intros c H. unfold ok, add_special, bind, get. destruct (frames c) as [|[s l] r]; [congruence|]. unfold set_frames. eauto. Qed.
Lemma ok_add_local : forall c, frames c <> [] -> ok add_local c.
Proof. intros c H. unfold ok, add_local, bind, get. destruct (frames c) as [|[s l] r]; [congruence|]. unfold set_frames. eauto. Qed.
Lemma ok_bind_var : forall x b n c, ids c <> [] -> frames c <> [] -> (b = true \/ 0 < depth c) -> ok (bind_var special x b n) c.
Proof.
  intros x b n c HI HF HD. unfold bind_var. apply ok_bind; [unfold special_variable_p; apply ok_bind; [apply ok_get|intros; apply ok_ret]|].
  intros sp c1 o1 B. assert (c1 = c) by (unfold special_variable_p in B; step B x1 x2 x3 x4; known; known; reflexivity). subst c1. destruct sp.
  - apply ok_bind; [apply ok_set_binding, HI|]. intros a1 c1 p1 B1. apply set_binding_inv in B1 as (f & r & E & -> & _). apply ok_bind; [apply ok_add_special; exact HF|].
    intros a2 c2 p2 B2. apply add_special_inv in B2 as (s & l & fr & E2 & -> & _). apply ok_bind; [destruct b; [apply ok_arg|apply ok_ret]|].
    intros a3 c3 p3 B3. apply ok_bind; [apply ok_get|]. intros a4 c4 p4 B4. known. apply ok_bind; [unfold ok, set_unwinds; eauto|]. intros a5 c5 p5 B5. unfold set_unwinds in B5. injection B5 as <- <- <-.
    unfold bind_special. apply ok_bind; [|intros; unfold ok, bind, get, emit, set_count; eauto]. apply ok_store.
    match goal with |- 0 < depth ?d => change (0 < depth c3) end. destruct b; [known; rewrite depth_pc; lia|]. known. destruct HD as [HD|HD]; [discriminate|exact HD].
  - destruct b.
    + apply ok_bind; [apply ok_ret|]. intros a1 c1 p1 B1. known. apply ok_set_binding, HI.
    + apply ok_bind; [apply ok_add_local, HF|]. intros a1 c1 p1 B1. apply add_local_inv in B1 as (s & l & fr & E2 & -> & _). apply ok_set_binding. exact HI.
Qed.
Lemma ok_delete : forall c, ids c <> [] -> frames c <> [] -> 0 < depth c -> ok delete_frame c.
Proof.
  intros c HI HF HD. unfold delete_frame. apply ok_bind; [apply ok_get|]. intros a c1 o1 B. known. destruct (frames c) as [|[s l] fs]; [congruence|]. destruct (ids c) as [|f is]; [congruence|].
  apply ok_bind; [unfold ok, set_frames; eauto|]. intros a1 c1 p1 B1. unfold set_frames in B1. injection B1 as <- <- <-.
  apply ok_bind; [destruct (Nat.ltb 0 s); [apply ok_bind; [apply ok_clear|intros; apply ok_emit]|apply ok_ret]|]. intros a2 c2 p2 B2.
  assert (D2 : depth c2 = depth c). { destruct (Nat.ltb 0 s); [|known; reflexivity]. unfold unbind_special in B2. step B2 x1 x2 x3 x4. known. known. rewrite depth_flat. reflexivity. }
  apply ok_bind; [apply ok_bind; [apply ok_store; lia|intros; apply ok_bind; [apply ok_discard|intros; apply ok_push]]|]. intros. unfold ok, bind, set_ids, set_scope. eauto.
Qed.
Lemma mem_assq : forall (A : Type) x (l : list (nat * A)), mem x (map fst l) = true -> exists a, assq x l = Some a.
Proof.
  intros A x l; induction l as [|[y a] r IH]; cbn [map fst assq]; [discriminate|]. unfold mem in *. cbn [existsb]. rewrite Nat.eqb_sym. destruct (Nat.eqb y x); [eauto|exact IH].
Qed.
Definition places (c : cst) (bl tg : list nat) : Prop :=
  (forall n, mem n bl = true -> exists a, assq n (blocks c) = Some a) /\ (forall t, mem t tg = true -> exists a, assq t (tags c) = Some a).
Lemma places_eq : forall c c' bl tg, places c bl tg -> blocks c' = blocks c -> tags c' = tags c -> places c' bl tg.
Proof. intros c c' bl tg H E1 E2. unfold places in *. rewrite E1, E2. exact H. Qed.
Lemma places_keep : forall lf c c' bl tg, places c bl tg -> keep lf c c' -> places c' bl tg.
Proof. intros lf c c' bl tg H K. eapply places_eq; [exact H|apply (kp_blocks _ _ _ K)|apply (kp_tags _ _ _ K)]. Qed.
Definition tot (e : exp) : Prop := forall c G bl tg, plain special e = true -> pre c G (fv e) (letfree e) -> places c bl tg ->
  scoped bl tg e = true -> ok (comp e) c.
Definition totcon (e : exp) : Prop := forall tl nl c G bl tg, plain special e = true -> pre c G (fv e) (letfree e) -> places c bl tg ->
  scoped bl tg e = true -> (tl <> None \/ nl <> None) -> ok (evcon comp e tl nl) c.
Definition cs (e : exp) : ct e := proj1 (comp_static e).
Definition csc (e : exp) : ctcon e := proj2 (comp_static e).
Lemma cs_all : forall l, Forall ct l. Proof. induction l; constructor; [apply cs|assumption]. Qed.
Lemma csc_all : forall l, Forall ctcon l. Proof. induction l; constructor; [apply csc|assumption]. Qed.
Lemma cs_snd : forall (A : Type) (l : list (A * exp)), Forall (fun p => ct (snd p)) l. Proof. induction l; constructor; [apply cs|assumption]. Qed.

Ltac sc := cbn [scoped forallb fst snd] in *; rewrite ?andb_true_iff in *; tauto.
(** [a] is compiled *)
Ltac sub Ht HA K PL := eapply Ht; [bt|eapply pre_keep; [exact HA|exact K|inc|lfi]|eapply places_keep; [exact PL|exact K]|sc].

Lemma progn_tot : forall l, Forall tot l -> forall c G bl tg, forallb (plain special) l = true ->
  pre c G (flat_map fv l) (forallb letfree l) -> places c bl tg -> forallb (scoped bl tg) l = true -> ok (progn comp l) c.
Proof.
  induction 1 as [|a r Ha HF IH]; intros c G bl tg HP HA PL HS; [apply ok_const|].
  pose proof (keep_refl (forallb letfree (a :: r)) c) as K. destruct r as [|b r]; [cbn [progn]; sub Ha HA K PL|].
  rewrite progn_cons by discriminate. set (br := b :: r) in *. apply ok_bind; [sub Ha HA K PL|]. intros v1 c1 o1 B1. pose proof (cs a) as Ca. adv Ca HA K B1 F1 D1.
  apply ok_bind; [apply ok_discard|]. intros v2 c2 o2 B2. known. mov K (popped c1). sub IH HA K PL.
Qed.
Lemma iter_tot : forall l, Forall tot l -> forall c G bl tg, forallb (plain special) l = true ->
  pre c G (flat_map fv l) (forallb letfree l) -> places c bl tg -> forallb (scoped bl tg) l = true -> ok (iter comp l) c.
Proof.
  induction 1 as [|a r Ha HF IH]; intros c G bl tg HP HA PL HS; [apply ok_ret|].
  pose proof (keep_refl (forallb letfree (a :: r)) c) as K. cbn [iter]. apply ok_bind; [sub Ha HA K PL|]. intros v1 c1 o1 B1. pose proof (cs a) as Ca. adv Ca HA K B1 F1 D1.
  sub IH HA K PL.
Qed.
Lemma and_tot : forall l x, Forall tot l -> forall c G bl tg, forallb (plain special) l = true ->
  pre c G (flat_map fv l) (forallb letfree l) -> places c bl tg -> forallb (scoped bl tg) l = true -> ok (and_ comp l x) c.
Proof.
  intros l x; induction 1 as [|a r Ha HF IH]; intros c G bl tg HP HA PL HS; [apply ok_const|].
  pose proof (keep_refl (forallb letfree (a :: r)) c) as K. destruct r as [|b r]; [cbn [and_]; sub Ha HA K PL|].
  rewrite and_cons by discriminate. set (br := b :: r) in *. apply ok_bind; [sub Ha HA K PL|]. intros v1 c1 o1 B1. pose proof (cs a) as Ca. adv Ca HA K B1 F1 D1.
  apply ok_bind; [apply ok_dupe|]. intros v2 c2 o2 B2. known. mov K (pc c1 (Some (dup_expr c1)) (depth c1)).
  apply ok_bind; [apply ok_if_nil; rewrite depth_pc; lia|]. intros v3 c3 o3 B3. unfold if_nil in B3. step B3 v4 c4 o4 B4. known.
  apply pop_inv in B4 as (D4 & -> & -> & ->). mov K (popped (pc c1 (Some (dup_expr c1)) (depth c1))).
  apply ok_bind; [apply ok_discard|]. intros v5 c5 o5 B5. known. match goal with |- ok _ ?d => mov K d end. sub IH HA K PL.
Qed.
Lemma or_tot : forall l x, Forall tot l -> forall c G bl tg, forallb (plain special) l = true ->
  pre c G (flat_map fv l) (forallb letfree l) -> places c bl tg -> forallb (scoped bl tg) l = true -> ok (or_ comp l x) c.
Proof.
  intros l x; induction 1 as [|a r Ha HF IH]; intros c G bl tg HP HA PL HS; [apply ok_const|].
  pose proof (keep_refl (forallb letfree (a :: r)) c) as K. destruct r as [|b r]; [cbn [or_]; sub Ha HA K PL|].
  rewrite or_cons by discriminate. set (br := b :: r) in *. apply ok_bind; [sub Ha HA K PL|]. intros v1 c1 o1 B1. pose proof (cs a) as Ca. adv Ca HA K B1 F1 D1.
  apply ok_bind; [apply ok_dupe|]. intros v2 c2 o2 B2. known. mov K (pc c1 (Some (dup_expr c1)) (depth c1)).
  apply ok_bind; [apply ok_if_t; rewrite depth_pc; lia|]. intros v3 c3 o3 B3. unfold if_t in B3. step B3 v4 c4 o4 B4. known.
  apply pop_inv in B4 as (D4 & -> & -> & ->). mov K (popped (pc c1 (Some (dup_expr c1)) (depth c1))).
  apply ok_bind; [apply ok_discard|]. intros v5 c5 o5 B5. known. match goal with |- ok _ ?d => mov K d end. sub IH HA K PL.
Qed.
Lemma setq_tot : forall l, Forall (fun p => tot (snd p)) l -> tot (Setq l).
Proof.
  unfold tot at 2; intros l HF. unfold comp. cbn [CompModel.comp fv letfree plain scoped]. fold comp.
  induction HF as [|[x a] r Ha HF IH]; intros c G bl tg HP HA PL HS; [apply ok_const|].
  cbn [snd] in Ha. pose proof (keep_refl (forallb (fun p : nat * exp => letfree (snd p)) ((x, a) :: r)) c) as K. pose proof (cs a) as Ca. destruct r as [|q r].
  - cbn [setq]. apply ok_bind; [sub Ha HA K PL|]. intros v1 c1 o1 B1. adv Ca HA K B1 F1 D1.
    assert (Gx : good (ids c1) G (scope c1) x) by (eapply good_keep; [exact HA|exact K|cbn [flat_map fst]; left; reflexivity]).
    apply ok_bind; [eapply ok_variable, Gx|]. intros i c2 o2 B2. destruct (variable_inv _ _ _ _ _ _ Gx B2) as (-> & -> & _).
    destruct i.
    + apply ok_bind; [apply ok_dupe|]. intros v3 c3 o3 B3. known. eapply ok_store_var; [exact Gx|rewrite depth_pc; lia].
    + apply ok_bind; [eapply ok_store_var; [exact Gx|lia]|]. intros v3 c3 o3 B3. apply store_var_inv with (G := G) in B3 as (_ & -> & _); [|exact Gx]. eapply ok_load_var; exact Gx.
    + apply ok_bind; [eapply ok_store_var; [exact Gx|lia]|]. intros v3 c3 o3 B3. apply store_var_inv with (G := G) in B3 as (_ & -> & _); [|exact Gx]. eapply ok_load_var; exact Gx.
  - rewrite setq_cons by discriminate. set (qr := q :: r) in *. apply ok_bind; [sub Ha HA K PL|]. intros v1 c1 o1 B1. adv Ca HA K B1 F1 D1.
    assert (Gx : good (ids c1) G (scope c1) x) by (eapply good_keep; [exact HA|exact K|cbn [flat_map fst]; left; reflexivity]).
    apply ok_bind; [eapply ok_store_var; [exact Gx|lia]|]. intros v2 c2 o2 B2. apply store_var_inv with (G := G) in B2 as (_ & -> & _); [|exact Gx].
    mov K (popped c1). sub IH HA K PL.
Qed.
Lemma con_tot : forall e, tot e -> (forall ev tl nl, evcon ev e tl nl = (ev e ;; conditional_jump tl nl)) -> totcon e.
Proof.
  intros e Ht E tl nl c G bl tg HP HA PL HS HN. rewrite E. apply ok_bind; [eapply Ht; eauto|]. intros v1 c1 o1 B1. destruct (cs e _ _ _ _ _ HP HA B1) as (_ & _ & D).
  unfold conditional_jump. destruct nl; [apply ok_if_nil; lia|]. destruct tl; [apply ok_if_t; lia|]. destruct HN; congruence.
Qed.
Lemma evall_tot : forall l tl nl, (tl <> None \/ nl <> None) -> Forall totcon l -> forall c G bl tg, forallb (plain special) l = true ->
  pre c G (flat_map fv l) (forallb letfree l) -> places c bl tg -> forallb (scoped bl tg) l = true -> ok (evall comp tl nl l) c.
Proof.
  intros l tl nl HN; induction 1 as [|a r Ha HF IH]; intros c G bl tg HP HA PL HS; [apply ok_ret|].
  pose proof (keep_refl (forallb letfree (a :: r)) c) as K. cbn [evall]. pose proof (csc a) as Ca.
  assert (Ha' : forall c G bl tg, plain special a = true -> pre c G (fv a) (letfree a) -> places c bl tg -> scoped bl tg a = true -> ok (evcon comp a tl nl) c) by (intros; eapply Ha; eauto).
  apply ok_bind; [sub Ha' HA K PL|]. intros v1 c1 o1 B1. adv0 Ca HA K B1 F1 P1 D1. sub IH HA K PL.
Qed.
Lemma and_con_tot : forall l, Forall totcon l -> l <> [] -> totcon (And l).
Proof.
  intros [|a r] HF N tl nl c G bl tg HP HA PL HS HN; [congruence|]. set (l := a :: r) in *.
  change (evcon comp (And l) tl nl) with
    (lb <- (match nl with Some x => ret x | None => genlabel end) ;; evall comp None (Some lb) l ;;
     match nl, tl with Some _, _ => ret tt | None, Some t => jump t ;; label lb | None, None => err end).
  apply ok_bind; [destruct nl; [apply ok_ret|apply ok_gen]|]. intros lb c1 o1 B1.
  assert (K : keep (letfree (And l)) c c1) by (destruct nl; known; [apply keep_refl|apply keep_lab; lia]).
  apply ok_bind; [eapply (evall_tot l None (Some lb)); [right; discriminate|exact HF|exact HP|eapply pre_keep; [exact HA|exact K|intros y Hy; exact Hy|intro h; exact h]|eapply places_keep; eauto|exact HS]|].
  intros v2 c2 o2 B2. destruct nl; [apply ok_ret|]. destruct tl; [|destruct HN; congruence]. apply ok_bind; [apply ok_jump|]. intros; apply ok_label.
Qed.
Lemma or_con_tot : forall l, Forall totcon l -> l <> [] -> totcon (Or l).
Proof.
  intros [|a r] HF N tl nl c G bl tg HP HA PL HS HN; [congruence|]. set (l := a :: r) in *.
  change (evcon comp (Or l) tl nl) with
    (lb <- (match tl with Some x => ret x | None => genlabel end) ;; evall comp (Some lb) None l ;;
     match tl, nl with Some _, _ => ret tt | None, Some t => jump t ;; label lb | None, None => err end).
  apply ok_bind; [destruct tl; [apply ok_ret|apply ok_gen]|]. intros lb c1 o1 B1.
  assert (K : keep (letfree (Or l)) c c1) by (destruct tl; known; [apply keep_refl|apply keep_lab; lia]).
  apply ok_bind; [eapply (evall_tot l (Some lb) None); [left; discriminate|exact HF|exact HP|eapply pre_keep; [exact HA|exact K|intros y Hy; exact Hy|intro h; exact h]|eapply places_keep; eauto|exact HS]|].
  intros v2 c2 o2 B2. destruct tl; [apply ok_ret|]. destruct nl; [|destruct HN; congruence]. apply ok_bind; [apply ok_jump|]. intros; apply ok_label.
Qed.
Lemma is_con_tot : forall p a, tot a -> totcon (Is p a).
Proof.
  intros p a Ha tl nl c G bl tg HP HA PL HS HN. cbn [evcon]. apply ok_bind; [eapply Ha; eauto|]. intros v1 c1 o1 B1. destruct (cs a _ _ _ _ _ HP HA B1) as (_ & _ & D).
  destruct nl; [|destruct tl; [|destruct HN; congruence]]; (apply ok_bind; [apply ok_store; lia|intros; apply ok_emit]).
Qed.
Lemma eq_con_tot : forall a b, tot a -> tot b -> totcon (Eq a b).
Proof.
  intros a b Ha Hb tl nl c G bl tg HP HA PL HS HN. cbn [evcon]. pose proof (keep_refl (letfree (Eq a b)) c) as K. pose proof (cs a) as Ca. pose proof (cs b) as Cb.
  apply ok_bind; [sub Ha HA K PL|]. intros v1 c1 o1 B1. adv Ca HA K B1 F1 D1. apply ok_bind; [sub Hb HA K PL|]. intros v2 c2 o2 B2. adv Cb HA K B2 F2 D2.
  destruct nl; [|destruct tl; [|destruct HN; congruence]]; (apply ok_pop2; [lia|intros; apply ok_emit]).
Qed.
Lemma clause_tot : forall p body exit next, tot p -> totcon p -> Forall tot body -> forall c G bl tg,
  plain special p = true -> forallb (plain special) body = true -> pre c G (fv p ++ flat_map fv body) (letfree p && forallb letfree body) ->
  places c bl tg -> scoped bl tg p = true -> forallb (scoped bl tg) body = true -> ok (clause comp exit next p body) c.
Proof.
  intros p body exit next Hp Hc Hb c G bl tg P1 P2 HA PL S1 S2. pose proof (keep_refl (letfree p && forallb letfree body) c) as K. pose proof (cs p) as Cp. destruct body as [|b r].
  - cbn [clause]. apply ok_bind; [sub Hp HA K PL|]. intros v1 c1 o1 B1. adv Cp HA K B1 F1 D1. apply ok_bind; [apply ok_dupe|]. intros v2 c2 o2 B2. known.
    apply ok_bind; [apply ok_if_t; rewrite depth_pc; lia|]. intros. apply ok_discard.
  - set (body := b :: r) in *.
    change (clause comp exit next p body) with ((if is_t p then ret tt else evcon comp p None (Some next)) ;; progn comp body ;; jump exit ;; adjust 1).
    assert (Hc' : forall c G bl tg, plain special p = true -> pre c G (fv p) (letfree p) -> places c bl tg -> scoped bl tg p = true -> ok (evcon comp p None (Some next)) c)
      by (intros; eapply Hc; eauto; right; discriminate).
    apply ok_bind; [destruct (is_t p); [apply ok_ret|sub Hc' HA K PL]|]. intros v1 c1 o1 B1.
    assert (X : keep (letfree p && forallb letfree body) c c1).
    { destruct (is_t p); [known; exact K|]. pose proof (csc p) as Cc. adv0 Cc HA K B1 F1 Q1 D1. exact K. }
    clear K. rename X into K. pose proof (progn_tot _ Hb) as Hpr. apply ok_bind; [sub Hpr HA K PL|]. intros. apply ok_bind; [apply ok_jump|]. intros. apply ok_adjust.
Qed.
Lemma cond_tot : forall l exit, Forall (fun p => tot (fst p) /\ totcon (fst p) /\ Forall tot (snd p)) l -> forall c G bl tg,
  forallb (fun p => plain special (fst p) && forallb (plain special) (snd p)) l = true ->
  pre c G (flat_map (fun p => fv (fst p) ++ flat_map fv (snd p)) l) (forallb (fun p => letfree (fst p) && forallb letfree (snd p)) l) ->
  places c bl tg -> forallb (fun p => scoped bl tg (fst p) && forallb (scoped bl tg) (snd p)) l = true -> ok (cond comp l exit) c.
Proof.
  intros l exit; induction 1 as [|[p body] r (Hp & Hc & Hb) HF IH]; intros c G bl tg HP HA PL HS; [apply ok_ret|].
  rewrite cond_cons. cbn [fst snd] in Hp, Hc, Hb. cbn [forallb flat_map fst snd] in HP, HA, HS. apply andb_true_iff in HS as (HS & HS3). apply andb_true_iff in HS as (HS1 & HS2).
  set (LF := letfree p && forallb letfree body && forallb (fun q => letfree (fst q) && forallb letfree (snd q)) r) in *. pose proof (keep_refl LF c) as K.
  apply ok_bind; [apply ok_gen|]. intros next c1 o1 B1. known. mov K (with_lab c (S (lab c))).
  pose proof (pre_keep _ _ _ _ _ _ _ HA K (incl_appl _ (incl_refl _)) (andb_l _ _)) as HA1.
  apply ok_bind; [eapply (clause_tot _ _ _ _ Hp Hc Hb); [exact (andb_l _ _ (andb_l _ _ HP))|exact (andb_r _ _ (andb_l _ _ HP))|exact HA1|eapply places_keep; eauto|assumption..]|].
  intros v2 c2 o2 B2.
  destruct (clause_ct _ _ _ _ (cs p) (csc p) (cs_all body) _ _ _ _ G (andb_l _ _ (andb_l _ _ HP)) (andb_r _ _ (andb_l _ _ HP)) HA1 B2) as (K2 & F2 & P2 & D2).
  assert (K3 : keep LF c c2) by (eapply keep_trans; [exact K|eapply keep_weaken; [exact K2|apply andb_l]]).
  apply ok_bind; [apply ok_label|]. intros v3 c3 o3 B3. known. mov K3 (flat c2).
  eapply IH; [exact (andb_r _ _ HP)|exact (pre_keep _ _ _ _ _ _ _ HA K3 (incl_appr _ (incl_refl _)) (andb_r _ _))|eapply places_keep; eauto|exact HS3].
Qed.
Lemma letstar_tot : forall is G fr body b f Gp bnd s l c bl tg, Forall (fun p => tot (snd p)) b ->
  building is G fr c f Gp bnd s l -> scope c = length is -> forallb (fun p => plain special (snd p)) b = true ->
  (forall x, In x (star_fv body b) -> In x bnd \/ good is G (length is - 1) x) ->
  places c bl tg -> forallb (fun p => scoped bl tg (snd p)) b = true -> ok (letstar_bind special comp b) c.
Proof.
  intros is G fr body b; induction b as [|[x a] r IH]; intros f Gp bnd s l c bl tg HF HB HSC HP HG PL HS; [apply ok_ret|].
  inversion HF as [|? ? Ha HF']; subst. cbn [snd] in Ha. cbn [forallb snd] in HP, HS. apply andb_true_iff in HP as (HP1 & HP2). apply andb_true_iff in HS as (HS1 & HS2).
  cbn [star_fv snd fst] in HG. fold (star_fv body) in HG.
  assert (HGa : forall y, In y (fv a) -> good (f :: is) (Gp ++ G) (length is) y).
  { intros y Hy. eapply good_inner; [exact (bu_fok _ _ _ _ _ _ _ _ _ HB)|exact (bu_nonempty _ _ _ _ _ _ _ _ _ HB)|]. apply HG, in_or_app; left; exact Hy. }
  assert (HA : pre c (Gp ++ G) (fv a) (letfree a)).
  { pose proof HB as [HI HO HN HFr HK]. unfold pre, agr, level. rewrite HI, HSC. cbn [length]. replace (S (length is) - 1) with (length is) by lia.
    split; [split; [exact HGa|right; exact HGa]|]. split; [exact HO|discriminate]. }
  cbn [letstar_bind]. apply ok_bind; [eapply Ha; eauto|]. intros v1 c1 o1 B1. destruct (cs a _ _ _ _ _ HP1 HA B1) as (K1 & _ & D1).
  apply ok_bind; [apply ok_offset|]. intros off c2 o2 B2. assert (B2' : id (offset_from_fp c1 = Some (off, c2, o2))) by exact B2. known.
  apply ok_bind.
  { apply ok_bind_var; cbn [ids frames flat pc].
    - rewrite (keep_ids _ _ _ K1), (bu_ids _ _ _ _ _ _ _ _ _ HB). discriminate.
    - rewrite (kp_frames _ _ _ K1), (bu_frames _ _ _ _ _ _ _ _ _ HB). discriminate.
    - right. rewrite depth_flat. lia. }
  intros v3 c3 o3 B3.
  assert (H1 : exists o4, letstar_bind special comp [(x, a)] c = Some (tt, c3, o4)).
  { cbn [letstar_bind]. unfold bind at 1. rewrite B1. unfold bind at 1. unfold id in B2'. rewrite B2'. unfold bind at 1. rewrite B3. cbn. eauto. }
  destruct H1 as (o4 & H1).
  destruct (letstar_step _ _ _ _ _ _ _ _ _ _ _ _ _ _ _ HB HSC HGa (cs a) HP1 H1) as (v & d1 & p1 & d2 & p2 & p3 & E1 & _ & (L1 & _) & H2 & X).
  cbn [letstar_bind] in H2. apply ret_inv in H2 as (_ & -> & _). cbv zeta in X.
  assert (HG2 : forall y, In y (star_fv body r) -> In y (x :: bnd) \/ good is G (length is - 1) y).
  { intros y Hy. destruct (Nat.eq_dec y x) as [->|N]; [left; left; reflexivity|].
    destruct (HG y) as [K|K]; [apply in_or_app; right; apply in_minus; split; [exact Hy|intros [E|[]]; congruence]|left; right; exact K|right; exact K]. }
  destruct (special x); destruct X as (_ & HB2 & EC); (eapply IH; [exact HF'|exact HB2|rewrite EC; exact HSC|exact HP2|exact HG2| |exact HS2]);
    (eapply places_eq; [exact PL|rewrite EC; apply (kp_blocks _ _ _ L1)|rewrite EC; apply (kp_tags _ _ _ L1)]).
Qed.
Lemma let_inits_tot : forall is G fr b seen f Gp bnd s l c sp bl tg, Forall (fun p => tot (snd p)) b ->
  building is G fr c f Gp bnd s l -> inits_plain b seen = true -> (forall x, In x bnd -> special x = true \/ In x seen) ->
  (forall x, In x (flat_map (fun p => fv (snd p)) b) -> good is G (length is - 1) x) ->
  places c bl tg -> forallb (fun p => scoped bl tg (snd p)) b = true -> ok (let_inits special comp b sp) c.
Proof.
  intros is G fr b; induction b as [|[x a] r IH]; intros seen f Gp bnd s l c sp bl tg HF HB HP HS HG PL HSC; [apply ok_ret|].
  inversion HF as [|? ? Ha HF']; subst. cbn [snd] in Ha. cbn [inits_plain snd fst] in HP. fold inits_plain in HP.
  apply andb_true_iff in HP as (HP1 & HP3). apply andb_true_iff in HP1 as (HP1 & HP2). cbn [flat_map snd] in HG.
  cbn [forallb snd] in HSC. apply andb_true_iff in HSC as (HSC1 & HSC2).
  pose proof (fun x Hx => HG x (in_or_app _ _ _ (or_introl Hx))) as HGa. cbn beta in HGa.
  pose proof (init_pre _ _ _ _ _ _ _ _ _ _ _ HB HP2 HS HGa) as HA.
  assert (PL1 : places (with_scope c (length (ids c) - 1 - 1)) bl tg) by (eapply places_eq; [exact PL|reflexivity|reflexivity]).
  destruct (Ha _ _ _ _ HP1 HA PL1 HSC1) as ([[v1 c1] o1] & B1). destruct (cs a _ _ _ _ _ HP1 HA B1) as (K1 & _ & D1).
  assert (I1 : ids c1 = f :: is) by (rewrite (keep_ids _ _ _ K1); exact (bu_ids _ _ _ _ _ _ _ _ _ HB)).
  assert (F1 : frames c1 = (s, l) :: fr) by (rewrite (kp_frames _ _ _ K1); exact (bu_frames _ _ _ _ _ _ _ _ _ HB)).
  assert (FS : forall sp', exists c3 sp3 o3, let_inits special comp [(x, a)] sp' c = Some (sp3, c3, o3)).
  { intro sp'. cbn [let_inits]. unfold bind at 1, get at 1. unfold bind at 1, set_scope. fold (with_scope c (length (ids c) - 1 - 1)). unfold bind at 1. rewrite B1.
    unfold bind at 1. destruct (ok_offset c1) as ([[off c2] o2] & B2). rewrite B2. known.
    unfold bind at 1. destruct (special_variable_p special x (flat c1)) as [[[b d] od]|] eqn:E; [|discriminate].
    assert (d = flat c1) by (unfold special_variable_p in E; step E x1 x2 x3 x4; known; known; reflexivity). subst d. destruct b.
    - destruct (ok_add_local (flat c1)) as ([[u d] p] & B4); [cbn; rewrite F1; discriminate|]. unfold bind. rewrite B4. cbn. eauto.
    - destruct (ok_bind_var x false (depth c1 - 1) (flat c1)) as ([[u d] p] & B4); [cbn; rewrite I1; discriminate|cbn; rewrite F1; discriminate|right; rewrite depth_flat; lia|].
      unfold bind. rewrite B4. cbn. eauto. }
  assert (GO : forall sp', (forall c2, places c2 bl tg -> (exists f2 Gp2 bnd2 l2, building is G fr c2 f2 Gp2 bnd2 s l2 /\ (forall y, In y bnd2 -> special y = true \/ In y (x :: seen))) ->
     forall sp2, ok (let_inits special comp r sp2) c2) -> ok (let_inits special comp ((x, a) :: r) sp') c).
  { intros sp' HK. destruct (FS sp') as (c3 & sp3 & o3 & H1).
    destruct (let_init_step _ _ _ _ _ _ _ _ _ _ _ _ _ _ _ _ _ HB HP2 HS HGa (cs a) HP1 H1) as (u & d1 & p1 & d2 & p2 & E1 & _ & (L1 & _) & X). cbv zeta in X.
    assert (Y : places d2 bl tg /\ exists f2 Gp2 bnd2 l2, building is G fr d2 f2 Gp2 bnd2 s l2 /\ (forall y, In y bnd2 -> special y = true \/ In y (x :: seen))).
    { destruct (special x); destruct X as (_ & HB2 & EC).
      - split; [eapply places_eq; [exact PL1|rewrite EC; apply (kp_blocks _ _ _ L1)|rewrite EC; apply (kp_tags _ _ _ L1)]|].
        exists f, Gp, bnd, (S l). split; [exact HB2|]. intros y Hy; destruct (HS y Hy); [left|right; right]; assumption.
      - split; [eapply places_eq; [exact PL1|rewrite EC; apply (kp_blocks _ _ _ L1)|rewrite EC; apply (kp_tags _ _ _ L1)]|].
        eexists; eexists; eexists; eexists. split; [exact HB2|]. intros y [->|Hy]; [right; left; reflexivity|destruct (HS y Hy); [left|right; right]; assumption]. }
    assert (E3 : c3 = d2) by (destruct (special x); destruct X as (X & _); cbn [let_inits] in X; known; reflexivity). subst d2.
    clear X. cbn [let_inits] in H1 |- *.
    step H1 y1 z1 w1 A1. known. step H1 y2 z2 w2 A2. step H1 y3 z3 w3 A3. step H1 y4 z4 w4 A4. step H1 y5 z5 w5 A5.
    unfold ok. unfold bind at 1, get at 1. unfold bind at 1. rewrite A2. unfold bind at 1. rewrite A3. unfold bind at 1. rewrite A4. unfold bind at 1. rewrite A5.
    destruct y5.
    - step H1 y6 z6 w6 A6. known. unfold bind. rewrite A6. destruct (HK _ (proj1 Y) (proj2 Y) ((x, y4 - 1) :: sp')) as ([[q1 q2] q3] & Q). rewrite Q. eauto.
    - step H1 y6 z6 w6 A6. known. unfold bind. rewrite A6. destruct (HK _ (proj1 Y) (proj2 Y) sp') as ([[q1 q2] q3] & Q). rewrite Q. eauto. }
  apply GO. intros c2 PL2 (f2 & Gp2 & bnd2 & l2 & HB2 & HS2) sp2.
  eapply (IH (x :: seen)); [exact HF'|exact HB2|exact HP3|exact HS2|intros y Hy; apply HG, in_or_app; right; exact Hy|exact PL2|exact HSC2].
Qed.
Lemma let_specials_tot : forall is G fr sp f Gp bnd s l c, building is G fr c f Gp bnd s l ->
  (forall x, In x (map fst sp) -> special x = true) -> ok (let_specials special sp) c.
Proof.
  intros is G fr sp; induction sp as [|[x off] r IH]; intros f Gp bnd s l c HB HS; [apply ok_ret|]. cbn [map fst] in HS.
  assert (H1 : exists c3 o3, let_specials special [(x, off)] c = Some (tt, c3, o3)).
  { cbn [let_specials]. destruct (ok_offset c) as ([[p c2] o2] & B2). unfold bind at 1. rewrite B2. known. destruct (ok_local off (flat c)) as ([[u c3] o3] & B3). unfold bind at 1. rewrite B3. known.
    match goal with |- context [bind (bind_var special x false ?d) _ ?c2] => destruct (ok_bind_var x false d c2) as ([[u2 c4] o4] & B4) end.
    - cbn. rewrite (bu_ids _ _ _ _ _ _ _ _ _ HB). discriminate.
    - cbn. rewrite (bu_frames _ _ _ _ _ _ _ _ _ HB). discriminate.
    - right. rewrite depth_pc. lia.
    - unfold bind. rewrite B4. cbn. eauto. }
  destruct H1 as (c3 & o3 & H1).
  destruct (let_special_step _ _ _ _ _ _ _ _ _ _ _ _ _ _ _ HB (HS x (or_introl eq_refl)) H1) as (c2 & o2 & _ & H2 & HB2 & _).
  cbn [let_specials] in H2. apply ret_inv in H2 as (_ & -> & _).
  cbn [let_specials] in H1 |- *. step H1 y1 z1 w1 A1. step H1 y2 z2 w2 A2. step H1 y3 z3 w3 A3. apply ret_inv in H1 as (_ & <- & _).
  unfold ok. unfold bind at 1. rewrite A1. unfold bind at 1. rewrite A2. unfold bind. rewrite A3.
  destruct (IH _ _ _ _ _ _ HB2 (fun y Hy => HS y (or_intror Hy))) as ([[q1 q2] q3] & Q). rewrite Q. eauto.
Qed.
Lemma let_end_tot : forall is G fr c f Gp bnd s l body u0 bl tg, building is G fr c f Gp bnd s l -> scope c = length is ->
  (forall x, In x (flat_map fv body) -> In x bnd \/ good is G (length is - 1) x) ->
  Forall tot body -> forallb (plain special) body = true -> places c bl tg -> forallb (scoped bl tg) body = true ->
  ok (progn comp body ;; set_unwinds u0 ;; delete_frame) c.
Proof.
  intros is G fr c f Gp bnd s l body u0 bl tg HB HSC HG HF HP PL HS. destruct HB as [HI HO HN HFr HK].
  assert (HA : pre c (Gp ++ G) (flat_map fv body) (forallb letfree body)).
  { assert (GI : forall x, In x (flat_map fv body) -> good (f :: is) (Gp ++ G) (length is) x) by (intros x Hx; eapply good_inner; eauto).
    unfold pre, agr, level. rewrite HI, HSC. cbn [length]. replace (S (length is) - 1) with (length is) by lia.
    split; [split; [exact GI|right; exact GI]|]. split; [exact HO|discriminate]. }
  apply ok_bind; [eapply progn_tot; eauto|]. intros v1 c1 o1 B1. destruct (progn_ct _ (cs_all body) _ _ _ _ _ HP HA B1) as (K & _ & D).
  apply ok_bind; [unfold ok, set_unwinds; eauto|]. intros v2 c2 o2 B2. unfold set_unwinds in B2. injection B2 as <- <- <-.
  apply ok_delete; cbn [ids frames]; [rewrite (keep_ids _ _ _ K), HI; discriminate|rewrite (kp_frames _ _ _ K), HFr; discriminate|].
  match goal with |- 0 < depth ?d => change (depth d) with (depth c1) end. lia.
Qed.
Lemma letstar_form_tot : forall b l, Forall (fun p => tot (snd p)) b -> Forall tot l -> tot (LetStar b l).
Proof.
  intros b l HFb HFl c G bl tg HP HA PL HS. cbn [plain] in HP. apply andb_true_iff in HP as (HP1 & HP2). cbn [scoped] in HS. apply andb_true_iff in HS as (HS1 & HS2).
  change (comp (LetStar b l)) with (c0 <- get ;; create_frame ;; letstar_bind special comp b ;; progn comp l ;; set_unwinds (unwinds c0) ;; delete_frame).
  apply ok_bind; [apply ok_get|]. intros c0 c1 o1 B1. known. apply ok_bind; [unfold ok; cbn; eauto|]. intros v2 c2 o2 B2. apply create_inv in B2 as (-> & ->).
  pose proof (created _ _ _ _ HA) as HB. match type of HB with building _ _ _ ?d _ _ _ _ _ => set (c2 := d) in * end.
  assert (HG : forall x, In x (star_fv l b) -> In x [] \/ good (ids c) G (length (ids c) - 1) x) by (intros x Hx; right; eapply good_level; eauto).
  assert (PL2 : places c2 bl tg) by (eapply places_eq; [exact PL|reflexivity|reflexivity]).
  apply ok_bind; [eapply letstar_tot; [exact HFb|exact HB|reflexivity|exact HP1|exact HG|exact PL2|exact HS1]|]. intros v3 c3 o3 B3.
  destruct (letstar_ct _ _ _ l _ _ _ _ _ _ _ _ _ _ (cs_snd _ b) HB eq_refl HP1 HG B3) as (f & Gp & bnd & s & n & HB3 & SC3 & HG3 & D3 & [M1 M2 M3 M4]).
  eapply let_end_tot; [exact HB3|exact SC3|exact HG3|exact HFl|exact HP2|eapply places_eq; [exact PL2|exact M1|exact M2]|exact HS2].
Qed.
Lemma let_form_tot : forall b l, Forall (fun p => tot (snd p)) b -> Forall tot l -> tot (Let b l).
Proof.
  intros b l HFb HFl c G bl tg HP HA PL HS. rewrite plain_let in HP. apply andb_true_iff in HP as (HP1 & HP2). cbn [scoped] in HS. apply andb_true_iff in HS as (HS1 & HS2).
  change (comp (Let b l)) with (c0 <- get ;; create_frame ;; sp <- let_inits special comp b [] ;; let_specials special sp ;;
    c1 <- get ;; set_scope (length (ids c1) - 1) ;; progn comp l ;; set_unwinds (unwinds c0) ;; delete_frame).
  apply ok_bind; [apply ok_get|]. intros c0 c1 o1 B1. known. apply ok_bind; [unfold ok; cbn; eauto|]. intros v2 c2 o2 B2. apply create_inv in B2 as (-> & ->).
  pose proof (created _ _ _ _ HA) as HB. match type of HB with building _ _ _ ?d _ _ _ _ _ => set (c2 := d) in * end.
  pose proof (good_level _ _ _ HA) as HG. cbn [fv] in HG.
  assert (PL2 : places c2 bl tg) by (eapply places_eq; [exact PL|reflexivity|reflexivity]).
  apply ok_bind; [eapply (let_inits_tot _ _ _ _ []); [exact HFb|exact HB|exact HP1|intros x []|exact (fun x Hx => HG x (in_or_app _ _ _ (or_introl Hx)))|exact PL2|exact HS1]|].
  intros sp c3 o3 B3.
  destruct (let_inits_ct _ _ _ _ [] _ _ _ _ _ _ _ _ _ _ (cs_snd _ b) HB HP1 (fun x (K : In x []) => match K with end)
    (fun x Hx => HG x (in_or_app _ _ _ (or_introl Hx))) B3) as (f & Gp & HB3 & E3 & D3 & U3 & [M1 M2 M3 M4]).
  rewrite app_nil_r in E3. apply ok_bind; [eapply let_specials_tot; [exact HB3|exact (spe_special _ _ E3)]|]. intros v4 c4 o4 B4.
  destruct (let_specials_ct _ _ _ _ _ _ _ _ _ _ _ _ _ HB3 (spe_special _ _ E3) B4) as (f4 & HB4 & D4 & L4 & [N1 N2 N3 N4]).
  apply ok_bind; [apply ok_get|]. intros v5 c5 o5 B5. known. apply ok_bind; [unfold ok, set_scope; eauto|]. intros v6 c6 o6 B6. unfold set_scope in B6. injection B6 as <- <- <-.
  fold (with_scope c4 (length (ids c4) - 1)). pose proof HB4 as [I4 O4 NE4 F4 K4].
  assert (HB5 : building (ids c) G (frames c) (with_scope c4 (length (ids c4) - 1)) f4 Gp (rev (map fst sp) ++ rev (lexnames b) ++ []) (0 + length sp) (0 + length b))
    by (split; assumption).
  assert (SC5 : scope (with_scope c4 (length (ids c4) - 1)) = length (ids c)) by (cbn [scope with_scope]; rewrite I4; cbn [length]; lia).
  eapply let_end_tot; [exact HB5|exact SC5|exact (body_bound _ _ _ _ _ _ E3 (fun x Hx => HG x (in_or_app _ _ _ (or_intror Hx))) eq_refl)|exact HFl|exact HP2| |exact HS2].
  eapply places_eq; [exact PL2|cbn [blocks with_scope]; congruence|cbn [tags with_scope]; congruence].
Qed.
Lemma enter_tags_tot : forall l fp c, ok (enter_tags l fp) c.
Proof.
  induction l as [|[t|a] r IH]; intros fp c; cbn [enter_tags]; [apply ok_ret| |apply IH].
  apply ok_bind; [apply ok_gen|]. intros. apply ok_bind; [apply ok_get|]. intros. apply ok_bind; [unfold ok, set_tags; eauto|]. intros. apply IH.
Qed.
Lemma items_tot : forall l, Forall (fun i => match i with inl _ => True | inr a => tot a end) l -> forall c G bl tg,
  forallb (fun i => match i with inl _ => true | inr a => plain special a end) l = true ->
  pre c G (flat_map (fun i => match i with inl _ => [] | inr a => fv a end) l) (forallb (fun i => match i with inl _ => true | inr a => letfree a end) l) ->
  places c bl tg -> (forall t, In t (tag_names l) -> mem t tg = true) ->
  forallb (fun i => match i with inl _ => true | inr a => scoped bl tg a end) l = true -> ok (items comp l) c.
Proof.
  induction 1 as [|i r Hi HF IH]; intros c G bl tg HP HA PL HT HS; [apply ok_ret|]. destruct i as [t|a]; cbn [items].
  - change (tag_names (inl t :: r)) with (t :: tag_names r) in HT. cbn [forallb flat_map] in HP, HA, HS. rewrite app_nil_l in HA.
    apply ok_bind; [apply ok_get|]. intros v1 c1 o1 B1. known. destruct (proj2 PL t (HT t (or_introl eq_refl))) as ([lb off] & E). rewrite E.
    apply ok_bind; [apply ok_label|]. intros v2 c2 o2 B2. known.
    eapply IH; [exact HP|eapply pre_ext; [exact HA|reflexivity|reflexivity]|eapply places_eq; [exact PL|reflexivity|reflexivity]|intros u Hu; apply HT; right; exact Hu|exact HS].
  - change (tag_names (inr a :: r)) with (tag_names r) in HT. cbn [forallb flat_map] in HP, HA, HS. apply andb_true_iff in HS as (HS1 & HS2).
    pose proof (pre_incl _ _ _ _ _ _ HA (incl_appl _ (incl_refl _)) (andb_l _ _)) as HA1.
    apply ok_bind; [eapply Hi; [exact (andb_l _ _ HP)|exact HA1|exact PL|exact HS1]|]. intros v1 c1 o1 B1.
    destruct (cs a _ _ _ _ G (andb_l _ _ HP) HA1 B1) as (K1 & F1 & D1).
    apply ok_bind; [apply ok_discard|]. intros v2 c2 o2 B2. known.
    match type of HA with pre _ _ _ ?LF => assert (K : keep LF c (popped c1)) by (eapply keep_trans; [eapply keep_weaken; [exact K1|apply andb_l]|apply keep_pc]) end.
    eapply IH; [exact (andb_r _ _ HP)|exact (pre_keep _ _ _ _ _ _ _ HA K (incl_appr _ (incl_refl _)) (andb_r _ _))|eapply places_keep; [exact PL|exact K]|exact HT|exact HS2].
Qed.
Lemma tagbody_tot : forall l, Forall (fun i => match i with inl _ => True | inr a => tot a end) l -> tot (Tagbody l).
Proof.
  intros l HF c G bl tg HP HA PL HS. cbn [plain] in HP. apply andb_true_iff in HP as (HP1 & HP2). apply distinct_nodup in HP1. cbn [scoped] in HS.
  change (comp (Tagbody l)) with (c0 <- get ;; fp <- offset_from_fp ;; enter_tags l fp ;; items comp l ;; load_const NIL ;; set_tags (tags c0)).
  apply ok_bind; [apply ok_get|]. intros v1 c1 o1 B1. known. apply ok_bind; [apply ok_offset|]. intros v2 c2 o2 B2. known. apply ok_bind; [apply enter_tags_tot|]. intros v3 c3 o3 B3.
  destruct (enter_tags_inv _ _ _ _ _ _ B3 HP1) as (-> & E1 & E2 & E3 & E4 & E5 & E6 & E7 & E8 & E9 & E10). cbn [fv letfree] in HA.
  assert (PT : forall t, In t (tag_names l) -> exists a, assq t (tags c3) = Some a).
  { intros t Ht. assert (X : In (assq t (tags c3)) (map (fun t => assq t (tags c3)) (tag_names l))) by (apply (in_map (fun t => assq t (tags c3))); exact Ht).
    rewrite E10 in X. apply in_map_iff in X as (n & X & _). eauto. }
  apply ok_bind; [|intros; apply ok_bind; [apply ok_const|intros; unfold ok, set_tags; eauto]].
  eapply items_tot; [exact HF|exact HP2|exact (pre_ext _ c3 _ _ _ HA E3 E4)| | |exact HS].
  - split; [rewrite E5; exact (proj1 PL)|]. intros t Ht. destruct (in_dec Nat.eq_dec t (tag_names l)) as [HI|HI]; [apply PT, HI|]. rewrite E9 by exact HI.
    apply (proj2 PL). apply mem_in in Ht. apply in_app_or in Ht as [Ht|Ht]; [contradiction|]. apply mem_in. exact Ht.
  - intros t Ht. apply mem_in, in_or_app. left. exact Ht.
Qed.
Lemma places_block : forall c c' bl tg b x, places c bl tg -> blocks c' = (b, x) :: blocks c -> tags c' = tags c -> places c' (b :: bl) tg.
Proof.
  intros c c' bl tg b x (P1 & P2) E1 E2. split; [|rewrite E2; exact P2]. intros n Hn. rewrite E1. cbn [assq]. unfold mem in Hn. cbn [existsb] in Hn. destruct (Nat.eqb_spec b n) as [->|N]; [eauto|].
  apply P1. apply orb_true_iff in Hn as [Hn|Hn]; [apply Nat.eqb_eq in Hn; congruence|exact Hn].
Qed.

Theorem comp_total : forall e, tot e /\ totcon e.
Proof.
  assert (D : forall e, tot e -> (forall ev tl nl, evcon ev e tl nl = (ev e ;; conditional_jump tl nl)) -> tot e /\ totcon e).
  { intros e H E. split; [exact H|apply con_tot; assumption]. }
  assert (FL : forall l, Forall (fun e => tot e /\ totcon e) l -> Forall tot l) by (intros l; apply Forall_impl; tauto).
  assert (FC : forall l, Forall (fun e => tot e /\ totcon e) l -> Forall totcon l) by (intros l; apply Forall_impl; tauto).
  assert (FB : forall l : list (nat * exp), Forall (fun p => tot (snd p) /\ totcon (snd p)) l -> Forall (fun p => tot (snd p)) l) by (intros l; apply Forall_impl; tauto).
  induction e using exp_full.
  - apply D; [|reflexivity]. intros c G bl tg HP HA PL HS. apply ok_const.
  - apply D; [|reflexivity]. intros c G bl tg HP HA PL HS. eapply ok_load_var. apply (good_keep _ _ _ _ _ _ HA (keep_refl _ _)); left; reflexivity.
  - apply D; [apply setq_tot; auto|reflexivity].
  - apply D; [|reflexivity]. intros c G bl tg HP HA PL HS. change (comp (Progn l)) with (progn comp l). eapply progn_tot; eauto.
  - apply D; [|reflexivity]. intros c G bl tg HP HA PL HS. destruct IHe1 as [_ H1], IHe2 as [H2 _], IHe3 as [H3 _].
    change (comp (If e1 e2 e3)) with (elselab <- genlabel ;; exitlab <- genlabel ;; evcon comp e1 None (Some elselab) ;;
      comp e2 ;; jump exitlab ;; adjust 1 ;; label elselab ;; comp e3 ;; label exitlab).
    pose proof (csc e1) as C1. pose proof (cs e2) as C2. pose proof (keep_refl (letfree (If e1 e2 e3)) c) as K.
    apply ok_bind; [apply ok_gen|]. intros v1 c1 o1 B1. known. mov K (with_lab c (S (lab c))). apply ok_bind; [apply ok_gen|]. intros v2 c2 o2 B2. known.
    cbn [lab with_lab] in *. mov K (with_lab (with_lab c (S (lab c))) (S (S (lab c)))).
    assert (H1' : forall c G bl tg, plain special e1 = true -> pre c G (fv e1) (letfree e1) -> places c bl tg -> scoped bl tg e1 = true -> ok (evcon comp e1 None (Some (S (lab c)))) c)
      by (intros; eapply H1; eauto; right; discriminate).
    apply ok_bind; [eapply H1; [bt|eapply pre_keep; [exact HA|exact K|inc|lfi]|eapply places_keep; [exact PL|exact K]|sc|right; discriminate]|].
    intros v3 c3 o3 B3. adv0 C1 HA K B3 F3 P3 D3. apply ok_bind; [sub H2 HA K PL|]. intros v4 c4 o4 B4. adv C2 HA K B4 F4 D4.
    apply ok_bind; [apply ok_jump|]. intros v5 c5 o5 B5. known. mov K (flat c4). apply ok_bind; [apply ok_adjust|]. intros v6 c6 o6 B6. known. match goal with |- ok _ ?d => mov K d end.
    apply ok_bind; [apply ok_label|]. intros v7 c7 o7 B7. known. match goal with |- ok _ ?d => mov K d end. apply ok_bind; [sub H3 HA K PL|]. intros. apply ok_label.
  - apply D; [|reflexivity]. intros c G bl tg HP HA PL HS.
    change (comp (Cond l)) with (exit <- genlabel ;; cond comp l exit ;; load_const NIL ;; label exit).
    assert (HF : Forall (fun p => tot (fst p) /\ totcon (fst p) /\ Forall tot (snd p)) l).
    { eapply Forall_impl; [|exact H]. cbn. intros [p q] ((A1 & A2) & A3). auto. }
    apply ok_bind; [apply ok_gen|]. intros v1 c1 o1 B1. known.
    apply ok_bind; [eapply (cond_tot _ _ HF); [exact HP|exact (pre_ext _ (with_lab c (S (lab c))) _ _ _ HA eq_refl eq_refl)|eapply places_eq; [exact PL|reflexivity|reflexivity]|exact HS]|].
    intros. apply ok_bind; [apply ok_const|]. intros. apply ok_label.
  - assert (HC : tot (And l)).
    { intros c G bl tg HP HA PL HS. change (comp (And l)) with (exit <- genlabel ;; and_ comp l exit ;; label exit). apply ok_bind; [apply ok_gen|]. intros v1 c1 o1 B1. known.
      apply ok_bind; [eapply (and_tot _ _ (FL _ H)); [exact HP|exact (pre_ext _ (with_lab c (S (lab c))) _ _ _ HA eq_refl eq_refl)|eapply places_eq; [exact PL|reflexivity|reflexivity]|exact HS]|].
      intros. apply ok_label. }
    destruct l as [|a r]; [apply D; [exact HC|reflexivity]|split; [exact HC|apply and_con_tot; [auto|discriminate]]].
  - assert (HC : tot (Or l)).
    { intros c G bl tg HP HA PL HS. change (comp (Or l)) with (exit <- genlabel ;; or_ comp l exit ;; label exit). apply ok_bind; [apply ok_gen|]. intros v1 c1 o1 B1. known.
      apply ok_bind; [eapply (or_tot _ _ (FL _ H)); [exact HP|exact (pre_ext _ (with_lab c (S (lab c))) _ _ _ HA eq_refl eq_refl)|eapply places_eq; [exact PL|reflexivity|reflexivity]|exact HS]|].
      intros. apply ok_label. }
    destruct l as [|a r]; [apply D; [exact HC|reflexivity]|split; [exact HC|apply or_con_tot; [auto|discriminate]]].
  - apply D; [|reflexivity]. intros c G bl tg HP HA PL HS.
    change (comp (While e l)) with (whilent <- genlabel ;; whilexit <- genlabel ;; whileblock <- enter_block 0 ;;
      label whilent ;; evcon comp e None (Some whilexit) ;; progn comp l ;; discard 1 ;; jump whilent ;;
      label whilexit ;; load_const NIL ;; label whileblock ;; leave_block).
    apply ok_bind; [apply ok_gen|]. intros v1 c1 o1 B1. known. apply ok_bind; [apply ok_gen|]. intros v2 c2 o2 B2. known. cbn [lab with_lab] in *.
    apply ok_bind; [apply ok_enter_block|]. intros v3 c3 o3 B3. apply enter_block_inv in B3 as (-> & -> & ->). match goal with |- ok _ ?d => set (cb := d) in * end.
    assert (HAb : pre cb G (fv (While e l)) (letfree (While e l))) by (apply (pre_ext c); [exact HA|reflexivity|reflexivity]).
    assert (PLb : places cb (0 :: bl) tg) by (eapply places_block; [exact PL|reflexivity|reflexivity]).
    pose proof (keep_refl (letfree (While e l)) cb) as K. destruct IHe as [_ He]. pose proof (csc e) as Ce. pose proof (progn_tot _ (FL _ H)) as HL. cbn [scoped] in HS. apply andb_true_iff in HS as (HS1 & HS2).
    apply ok_bind; [apply ok_label|]. intros v4 c4 o4 B4. known. mov K (flat cb).
    apply ok_bind; [eapply He; [bt|eapply pre_keep; [exact HAb|exact K|inc|lfi]|eapply places_keep; [exact PLb|exact K]|exact HS1|right; discriminate]|].
    intros v5 c5 o5 B5. adv0 Ce HAb K B5 F5 P5 D5.
    apply ok_bind; [eapply HL; [bt|eapply pre_keep; [exact HAb|exact K|inc|lfi]|eapply places_keep; [exact PLb|exact K]|exact HS2]|].
    intros. apply ok_bind; [apply ok_discard|]. intros. apply ok_bind; [apply ok_jump|]. intros. apply ok_bind; [apply ok_label|]. intros. apply ok_bind; [apply ok_const|]. intros.
    apply ok_bind; [apply ok_label|]. intros. apply ok_leave_block.
  - apply D; [apply let_form_tot; auto|reflexivity].
  - apply D; [apply letstar_form_tot; auto|reflexivity].
  - apply D; [|reflexivity]. intros c G bl tg HP HA PL HS.
    change (comp (Block n l)) with (lb <- enter_block n ;; progn comp l ;; label lb ;; leave_block).
    apply ok_bind; [apply ok_enter_block|]. intros v3 c3 o3 B3. apply enter_block_inv in B3 as (-> & -> & ->). match goal with |- ok _ ?d => set (cb := d) in * end.
    apply ok_bind; [eapply (progn_tot _ (FL _ H)); [exact HP|apply (pre_ext c); [exact HA|reflexivity|reflexivity]|eapply places_block; [exact PL|reflexivity|reflexivity]|exact HS]|].
    intros. apply ok_bind; [apply ok_label|]. intros. apply ok_leave_block.
  - apply D; [|reflexivity]. intros c G bl tg HP HA PL HS. cbn [scoped] in HS. apply andb_true_iff in HS as (HS1 & HS2).
    change (comp (ReturnFrom n e)) with (comp e ;; c <- get ;; match assq n (blocks c) with
      | Some (lb, off) => return_from off (need_unwind c off) ;; jump lb | None => err end).
    pose proof (keep_refl (letfree (ReturnFrom n e)) c) as K. destruct IHe as [He _]. pose proof (cs e) as Ce. apply ok_bind; [sub He HA K PL|]. intros v1 c1 o1 B1. adv Ce HA K B1 F1 D1.
    apply ok_bind; [apply ok_get|]. intros v2 c2 o2 B2. known. destruct (proj1 (places_keep _ _ _ _ _ PL K) n HS1) as ([lb off] & E). rewrite E.
    apply ok_bind; [apply ok_return_from; lia|]. intros. apply ok_jump.
  - apply D; [apply tagbody_tot|reflexivity]. eapply Forall_impl; [|exact H]. cbn. intros [t|a] X; tauto.
  - apply D; [|reflexivity]. intros c G bl tg HP HA PL HS. cbn [scoped] in HS.
    change (comp (Go t)) with (c <- get ;; match assq t (tags c) with
      | Some (lb, off) => go_tag off (need_unwind c off) ;; jump lb | None => err end).
    apply ok_bind; [apply ok_get|]. intros v2 c2 o2 B2. known. destruct (proj2 PL t HS) as ([lb off] & E). rewrite E. apply ok_bind; [apply ok_go|]. intros. apply ok_jump.
  - apply D; [|reflexivity]. intros c G bl tg HP HA PL HS. change (comp (Call f l)) with (iter comp l ;; call_ f (length l)).
    apply ok_bind; [eapply (iter_tot _ (FL _ H)); eauto|]. intros. apply ok_call.
  - destruct IHe as [He Hc]. split.
    + intros c G bl tg HP HA PL HS. change (comp (Null e)) with (comp e ;; nullx). pose proof (keep_refl (letfree (Null e)) c) as K. pose proof (cs e) as Ce.
      apply ok_bind; [sub He HA K PL|]. intros v1 c1 o1 B1. adv Ce HA K B1 F1 D1. apply ok_bind; [apply ok_pop; lia|]. intros. apply ok_push.
    + intros tl nl c G bl tg HP HA PL HS HN. change (evcon comp (Null e) tl nl) with (evcon comp e nl tl). eapply Hc; eauto. tauto.
  - destruct IHe1 as [H1 _], IHe2 as [H2 _]. split; [|apply eq_con_tot; assumption]. intros c G bl tg HP HA PL HS. change (comp (Eq e1 e2)) with (comp e1 ;; comp e2 ;; eqx).
    pose proof (keep_refl (letfree (Eq e1 e2)) c) as K. pose proof (cs e1) as C1. pose proof (cs e2) as C2. apply ok_bind; [sub H1 HA K PL|]. intros v1 c1 o1 B1. adv C1 HA K B1 F1 D1.
    apply ok_bind; [sub H2 HA K PL|]. intros v2 c2 o2 B2. adv C2 HA K B2 F2 D2. apply ok_pop2; [lia|]. intros. apply ok_push.
  - apply D; [|reflexivity]. destruct IHe as [He Hc]. intros c G bl tg HP HA PL HS. change (comp (Car e)) with (comp e ;; (check_cons_nil ;; x <- pop ;; push_ (CCar x))).
    pose proof (keep_refl (letfree (Car e)) c) as K. pose proof (cs e) as Ce. apply ok_bind; [sub He HA K PL|]. intros v1 c1 o1 B1. adv Ce HA K B1 F1 D1. apply ok_carcdr. lia.
  - apply D; [|reflexivity]. destruct IHe as [He Hc]. intros c G bl tg HP HA PL HS. change (comp (Cdr e)) with (comp e ;; (check_cons_nil ;; x <- pop ;; push_ (CCdr x))).
    pose proof (keep_refl (letfree (Cdr e)) c) as K. pose proof (cs e) as Ce. apply ok_bind; [sub He HA K PL|]. intros v1 c1 o1 B1. adv Ce HA K B1 F1 D1. apply ok_carcdr. lia.
  - destruct IHe as [He Hc]. split; [|apply is_con_tot; exact He]. intros c G bl tg HP HA PL HS. change (comp (Is p e)) with (comp e ;; type_check_predicate p).
    pose proof (keep_refl (letfree (Is p e)) c) as K. pose proof (cs e) as Ce. apply ok_bind; [sub He HA K PL|]. intros v1 c1 o1 B1. adv Ce HA K B1 F1 D1.
    apply ok_bind; [apply ok_store; lia|]. intros. apply ok_push.
Qed.
End Static.
