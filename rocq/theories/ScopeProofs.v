(* The interpreter follows the text: proofs. *)

From Coq Require Import List Bool Arith Lia.
From Verif Require Import ScopeLang ScopeModel ScopeSpec.
Import ListNotations.

Section Proofs.

Variables (V W : Type).
Variable nilv : V.
Variable isnil : V -> bool.
Variable kinds : nat -> kind.
Variable defs : nat -> option (fdef V).
Variable prim : nat -> list V -> dynamic V -> W -> option (V * dynamic V * W).
Variable local : nat -> bool.

Notation exp := (exp V).
Notation frame := (frame V).
Notation ctx := (ctx V W).
Notation state := (state V W).
Notation fenv := (fenv V).
Notation ptr := (option nat).
Notation proclaimed := (proclaimed kinds).
Notation good := (good kinds local).

Implicit Types (mm : nat -> frame) (c : ctx) (s : state) (e : env) (fe : fenv).

(* ------------------------------------------------------------------ *)
(* Memory *)

Definition below (p : ptr) (b : nat) : Prop :=
  match p with None => True | Some a => a < b end.

Definition shape (f f' : frame) : Prop :=
  f = f' \/ exists d lx x v v', f = FBind d lx x (Some v) /\ f' = FBind d lx x (Some v').

Definition similar mm mm' (b : nat) : Prop := forall a, a < b -> shape (mm a) (mm' a).

Lemma similar_refl : forall mm b, similar mm mm b.
Proof. intros mm b a _. now left. Qed.

Lemma similar_trans : forall m1 m2 m3 b, similar m1 m2 b -> similar m2 m3 b -> similar m1 m3 b.
Proof.
  intros m1 m2 m3 b H1 H2 a Ha. specialize (H1 a Ha). specialize (H2 a Ha).
  destruct H1 as [E1|(d & lx & x & v & v' & E1 & E1')].
  - rewrite E1. exact H2.
  - destruct H2 as [E2|(d2 & lx2 & x2 & v2 & v2' & E2 & E2')].
    + right. exists d, lx, x, v, v'. now rewrite <- E2.
    + right. rewrite E1' in E2. injection E2 as -> -> -> ->.
      exists d2, lx2, x2, v, v2'. auto.
Qed.

Lemma similar_le : forall m1 m2 b b', similar m1 m2 b -> b' <= b -> similar m1 m2 b'.
Proof. intros m1 m2 b b' H L a Ha. apply H. lia. Qed.

Lemma similar_poke : forall mm a f b, b <= a -> similar mm (poke mm a f) b.
Proof.
  intros mm a f b L x Hx. left. unfold poke.
  destruct (Nat.eqb_spec x a); [lia|reflexivity].
Qed.

Lemma poke_same : forall mm a f, poke mm a f a = f.
Proof. intros. unfold poke. now rewrite Nat.eqb_refl. Qed.

Lemma poke_other : forall mm a f b, b <> a -> poke mm a f b = mm b.
Proof. intros. unfold poke. destruct (Nat.eqb_spec b a); [contradiction|reflexivity]. Qed.

Lemma shape_bind : forall d lx x v f', shape (FBind d lx x (Some v)) f' ->
  exists v', f' = FBind d lx x (Some v').
Proof.
  intros d lx x v f' [<-|(d' & lx' & x' & w & w' & E & ->)].
  - now exists v.
  - injection E as -> -> -> ->. now exists w'.
Qed.

Lemma shape_nobind : forall f f', shape f f' ->
  (forall d lx x v, f <> FBind d lx x (Some v)) -> f' = f.
Proof.
  intros f f' [<-|(d' & lx' & x' & w & w' & -> & ->)] H; [reflexivity|].
  exfalso. eapply H. reflexivity.
Qed.

(* ------------------------------------------------------------------ *)
(* Which frame holds which location *)

Definition amap := list (nat * nat).

Record maps (m : amap) s mm (b : nat) : Prop := {
  mp_val : forall a l, In (a, l) m -> a < b /\
    exists d lx x v, mm a = FBind d lx x (Some v) /\ nth_error (sto s) l = Some v;
  mp_fun : forall a l a' l', In (a, l) m -> In (a', l') m -> (a = a' <-> l = l')
}.

Inductive envrel mm (m : amap) : env -> ptr -> Prop :=
| er_nil : envrel mm m [] None
| er_cons : forall x l e a d lx v,
    mm a = FBind d lx x (Some v) -> In (a, l) m -> below lx a -> kinds x = Variable_ ->
    envrel mm m e lx -> envrel mm m ((x, Loc l) :: e) (Some a).

Inductive hid mm : ptr -> Prop :=
| hid_nil : hid mm None
| hid_cons : forall a f ps body bfp ffp lexl dynl,
    mm a = FFlet f ps body bfp ffp lexl dynl -> local f = true -> below lexl a ->
    hid mm lexl -> hid mm (Some a).

Inductive grouprel mm (bfp ffp rest : ptr)
  : list (nat * (list nat * list exp)) -> ptr -> Prop :=
| gr_nil : grouprel mm bfp ffp rest [] rest
| gr_cons : forall f ps body fns a lexl dynl,
    mm a = FFlet f ps body bfp ffp lexl dynl -> local f = true -> below lexl a ->
    grouprel mm bfp ffp rest fns lexl ->
    grouprel mm bfp ffp rest ((f, (ps, body)) :: fns) (Some a).

Inductive fenvrel mm (m : amap) : fenv -> ptr -> Prop :=
| fr_end : forall p, hid mm p -> fenvrel mm m FEnd p
| fr_group : forall (rec : bool) fns e b fe bfp rest p,
    grouprel mm bfp (if rec then p else rest) rest (rev fns) p ->
    envrel mm m e bfp -> fenvrel mm m fe rest ->
    fenvrel mm m (FGroup rec fns e b fe) p.

(* Every visible function's variables are variables of the place it is
   visible from. *)
Fixpoint fsuffix e fe : Prop :=
  match fe with
  | FEnd => True
  | FGroup _ _ e' _ fe' => (exists pre, e = pre ++ e') /\ fsuffix e' fe'
  end.

Lemma fsuffix_app : forall pre e fe, fsuffix e fe -> fsuffix (pre ++ e) fe.
Proof.
  intros pre e [|r fns e' b fe'] H; [exact I|].
  destruct H as [(p & ->) H]. split; [|exact H]. exists (pre ++ p). apply app_assoc.
Qed.

Definition blist := list (nat * nat * nat).     (* name, instance, address *)
Definition bids (bl : blist) := map (fun t => snd (fst t)) bl.
Definition bnames (bl : blist) := map (fun t => fst (fst t)) bl.

Inductive blkrel mm : blist -> ptr -> Prop :=
| br_nil : blkrel mm [] None
| br_cons : forall n id a bl dk lk,
    mm a = FBlock dk lk (Some n) -> below lk a -> Forall (fun i => i < id) (bids bl) ->
    blkrel mm bl lk -> blkrel mm ((n, id, a) :: bl) (Some a).

Definition slist := list (nat * nat * option V).
Inductive specrel mm : slist -> ptr -> Prop :=
| sr_nil : specrel mm [] None
| sr_cons : forall a x old link sc,
    mm a = FSpec link x old -> below link a -> kinds x <> Variable_ ->
    specrel mm sc link -> specrel mm ((a, x, old) :: sc) (Some a).

(* What leaving the special frames at a or above does. *)
Fixpoint undo (a : nat) (sc : slist) (d : dynamic V) : dynamic V :=
  match sc with
  | [] => d
  | (b, x, o) :: sc => if a <=? b then undo a sc (upd d x o) else d
  end.

Fixpoint after (a : nat) (sc : slist) : ptr :=
  match sc with
  | [] => None
  | (b, x, o) :: sc => if a <=? b then after a sc else Some b
  end.

Lemma below_le : forall p a b, below p a -> a <= b -> below p b.
Proof. intros [p|] a b H L; cbn in *; [lia|exact I]. Qed.

(* --- stability ------------------------------------------------------ *)

Lemma envrel_below : forall mm m e p s b, envrel mm m e p -> maps m s mm b -> below p b.
Proof. intros mm m e p s b [|x l e' a d lx v E Hi _ _ _] M; [exact I|]. apply (mp_val _ _ _ _ M) in Hi. apply Hi. Qed.

Lemma envrel_similar : forall mm mm' m e p b,
  (forall a l, In (a, l) m -> a < b) ->
  similar mm mm' b -> envrel mm m e p -> envrel mm' m e p.
Proof.
  intros mm mm' m e p b Hb Hs H. induction H as [|x l e a d lx v E Hi Hl Hk H IH].
  - constructor.
  - pose proof (Hs a (Hb _ _ Hi)) as Sh. rewrite E in Sh.
    destruct (shape_bind _ _ _ _ _ Sh) as (v' & E').
    econstructor; eauto.
Qed.

Lemma envrel_incl : forall mm m m' e p, incl m m' -> envrel mm m e p -> envrel mm m' e p.
Proof. intros mm m m' e p Hi H. induction H; econstructor; eauto. Qed.

Lemma hid_similar : forall mm mm' p b, similar mm mm' b -> below p b -> hid mm p -> hid mm' p.
Proof.
  intros mm mm' p b Hs Hb H. induction H as [|a f ps body bfp ffp lexl dynl E L Hl H IH].
  - constructor.
  - cbn in Hb. pose proof (shape_nobind _ _ (Hs a Hb)) as Sh.
    rewrite E in Sh. specialize (Sh ltac:(discriminate)).
    econstructor; eauto. apply IH. eapply below_le; [exact Hl|lia].
Qed.

Lemma grouprel_similar : forall mm mm' bfp ffp rest fns p b,
  similar mm mm' b -> below p b ->
  grouprel mm bfp ffp rest fns p -> grouprel mm' bfp ffp rest fns p.
Proof.
  intros mm mm' bfp ffp rest fns p b Hs Hb H.
  induction H as [|f ps body fns a lexl dynl E L Hl H IH].
  - constructor.
  - cbn in Hb. pose proof (shape_nobind _ _ (Hs a Hb)) as Sh.
    rewrite E in Sh. specialize (Sh ltac:(discriminate)).
    econstructor; eauto. apply IH. eapply below_le; [exact Hl|lia].
Qed.

Lemma grouprel_rest : forall mm bfp ffp rest fns p b,
  grouprel mm bfp ffp rest fns p -> below p b -> below rest b.
Proof.
  intros mm bfp ffp rest fns p b H. induction H as [|f ps body fns a lexl dynl E L Hl H IH]; intros Hb.
  - exact Hb.
  - apply IH. cbn in Hb. eapply below_le; [exact Hl|lia].
Qed.

Lemma fenvrel_similar : forall mm mm' m fe p b,
  (forall a l, In (a, l) m -> a < b) ->
  similar mm mm' b -> below p b -> fenvrel mm m fe p -> fenvrel mm' m fe p.
Proof.
  intros mm mm' m fe p b Hm Hs Hb H.
  induction H as [p H|rec fns e bb fe bfp rest p G E H IH].
  - constructor. eapply hid_similar; eauto.
  - econstructor.
    + eapply grouprel_similar; eauto.
    + eapply envrel_similar; eauto.
    + apply IH. eapply grouprel_rest; eauto.
Qed.

Lemma fenvrel_incl : forall mm m m' fe p, incl m m' -> fenvrel mm m fe p -> fenvrel mm m' fe p.
Proof.
  intros mm m m' fe p Hi H. induction H; econstructor; eauto using envrel_incl.
Qed.

Lemma grouprel_hid : forall mm bfp ffp rest fns p,
  grouprel mm bfp ffp rest fns p -> hid mm rest -> hid mm p.
Proof. intros mm bfp ffp rest fns p H Hr. induction H; [exact Hr|]. econstructor; eauto. Qed.

Lemma fenvrel_hid : forall mm m fe p, fenvrel mm m fe p -> hid mm p.
Proof.
  intros mm m fe p H. induction H as [p H|rec fns e bb fe bfp rest p G E H IH]; [exact H|].
  eapply grouprel_hid; eauto.
Qed.

Lemma blkrel_similar : forall mm mm' bl p b,
  similar mm mm' b -> below p b -> blkrel mm bl p -> blkrel mm' bl p.
Proof.
  intros mm mm' bl p b Hs Hb H. induction H as [|n id a bl dk lk E L F H IH].
  - constructor.
  - cbn in Hb. pose proof (shape_nobind _ _ (Hs a Hb)) as Sh.
    rewrite E in Sh. specialize (Sh ltac:(discriminate)).
    econstructor; eauto. apply IH. eapply below_le; [exact L|lia].
Qed.

Lemma specrel_similar : forall mm mm' sc p b,
  similar mm mm' b -> below p b -> specrel mm sc p -> specrel mm' sc p.
Proof.
  intros mm mm' sc p b Hs Hb H. induction H as [|a x old link sc E L K H IH].
  - constructor.
  - cbn in Hb. pose proof (shape_nobind _ _ (Hs a Hb)) as Sh.
    rewrite E in Sh. specialize (Sh ltac:(discriminate)).
    econstructor; eauto. apply IH. eapply below_le; [exact L|lia].
Qed.

Lemma specrel_lt : forall mm sc p b, specrel mm sc p -> below p b ->
  Forall (fun t => fst (fst t) < b) sc.
Proof.
  intros mm sc p b H. induction H as [|a x old link sc E L K H IH]; intros Hb; constructor.
  - exact Hb.
  - apply IH. cbn in Hb. eapply below_le; [exact L|lia].
Qed.

Lemma specrel_head : forall mm sc p b, specrel mm sc p -> below p b -> after b sc = p.
Proof.
  intros mm sc p b [|a x old link sc' E L K H] Hb; cbn; [reflexivity|].
  cbn in Hb. destruct (Nat.leb_spec b a); [lia|reflexivity].
Qed.

Lemma undo_none : forall sc a d, Forall (fun t => fst (fst t) < a) sc -> undo a sc d = d.
Proof.
  intros [|[[b x] o] sc] a d H; [reflexivity|]. inversion H as [|? ? Hb _]; subst. cbn in *.
  destruct (Nat.leb_spec a b); [lia|reflexivity].
Qed.

Lemma undo_app : forall new sc a d, Forall (fun t => a <= fst (fst t)) new ->
  undo a (new ++ sc) d = undo a sc (undo 0 new d).
Proof.
  induction new as [|[[b x] o] new IH]; intros sc a d H; [reflexivity|].
  inversion H as [|? ? Hb H']; subst. cbn in *.
  destruct (Nat.leb_spec a b); [|lia]. apply IH. exact H'.
Qed.

Lemma after_app : forall new sc a, Forall (fun t => a <= fst (fst t)) new ->
  after a (new ++ sc) = after a sc.
Proof.
  induction new as [|[[b x] o] new IH]; intros sc a H; [reflexivity|].
  inversion H as [|? ? Hb H']; subst. cbn in *.
  destruct (Nat.leb_spec a b); [|lia]. apply IH. exact H'.
Qed.

(* --- unbindspecial --------------------------------------------------- *)

Lemma unbind_loop_ok : forall k limit sc c,
  specrel (mem c) sc (sbindfp c) -> below (sbindfp c) k ->
  unbind_loop V W kinds k limit c =
  set_sbindfp (set_dyn c (undo limit sc (dyn c))) (after limit sc).
Proof.
  induction k as [|k IH]; intros limit sc c H Hb.
  - destruct c as [mm vs bf sb bk fp dd sl w]. cbn in *.
    destruct H as [|a x old link sc E L K H]; [reflexivity|]. cbn in Hb. lia.
  - destruct c as [mm vs bf sb bk fp dd sl w]. cbn in H, Hb |- *.
    destruct H as [|a x old link sc E L K H]; [reflexivity|]. cbn in *.
    destruct (Nat.leb_spec limit a) as [Le|Gt]; [|reflexivity].
    rewrite E. destruct (kinds x) eqn:Kx; [contradiction| |];
    (rewrite (IH limit sc); [reflexivity|exact H|cbn; eapply below_le; [exact L|lia]]).
Qed.

Lemma unbindspecial_ok : forall limit sc c,
  specrel (mem c) sc (sbindfp c) ->
  unbindspecial V W kinds limit c =
  set_sbindfp (set_dyn c (undo limit sc (dyn c))) (after limit sc).
Proof.
  intros limit sc c H. unfold unbindspecial.
  destruct (sbindfp c) as [a|] eqn:E.
  - apply unbind_loop_ok; rewrite E; [exact H|cbn; lia].
  - inversion H; subst. destruct c as [mm vs bf sb bk fp dd sl w]. cbn in *. now subst.
Qed.

(* ------------------------------------------------------------------ *)
(* Walks *)

Lemma find_var_ok : forall mm m e p k x,
  envrel mm m e p -> below p k ->
  match assoc x e with
  | None => find_var mm k p x = None
  | Some pl => exists l a d lx v, pl = Loc l /\ In (a, l) m /\
                 mm a = FBind d lx x (Some v) /\ find_var mm k p x = Some (a, Some v)
  end.
Proof.
  intros mm m e p k x H. revert k. induction H as [|y l e a d lx v E Hi Hl Hk H IH]; intros k Hb.
  - cbn. destruct k; reflexivity.
  - cbn in Hb. destruct k as [|k]; [lia|]. cbn. rewrite E.
    destruct (Nat.eqb_spec y x) as [->|Hn].
    + exists l, a, d, lx, v. auto.
    + apply IH. eapply below_le; [exact Hl|lia].
Qed.

Lemma scan_ok : forall mm m e p k bf x,
  envrel mm m e p -> below p k ->
  (forall y l a, In (y, Loc l) e -> In (a, l) m -> above (Some a) bf = true -> y <> x) ->
  scan mm k p bf x = None.
Proof.
  intros mm m e p k bf x H. revert k. induction H as [|y l e a d lx v E Hi Hl Hk H IH]; intros k Hb Hx.
  - destruct k; reflexivity.
  - cbn in Hb. destruct k as [|k]; [lia|]. cbn [scan]. rewrite E.
    destruct (above (Some a) bf) eqn:A; [|reflexivity].
    destruct (Nat.eqb_spec y x) as [->|Hn].
    + exfalso. eapply Hx; [now left|exact Hi|exact A|reflexivity].
    + apply IH; [eapply below_le; [exact Hl|lia]|].
      intros y' l' a' H1 H2 H3. eapply Hx; [right; exact H1|exact H2|exact H3].
Qed.

Lemma envrel_le : forall mm m s b e p, envrel mm m e p -> maps m s mm b ->
  forall y l a, In (y, Loc l) e -> In (a, l) m -> above (Some a) p = false.
Proof.
  intros mm m s b e p H M. induction H as [|x l e a d lx v E Hi Hl Hk H IH]; intros y l' a' H1 H2.
  - destruct H1.
  - destruct H1 as [H1|H1].
    + injection H1 as -> ->.
      assert (a = a') as -> by (apply (mp_fun _ _ _ _ M _ _ _ _ Hi H2); reflexivity).
      cbn. now apply Nat.ltb_irrefl.
    + specialize (IH _ _ _ H1 H2). cbn in *. destruct lx as [lx|]; [|discriminate].
      cbn in *. apply Nat.ltb_ge in IH. apply Nat.ltb_ge. lia.
Qed.

Lemma find_fun_hid : forall mm p k f, hid mm p -> local f = false -> find_fun mm k p f = None.
Proof.
  intros mm p k f H L. revert k. induction H as [|a g ps body bfp ffp lexl dynl E Lg Hl H IH]; intros k.
  - now destruct k.
  - destruct k as [|k]; [reflexivity|]. cbn. rewrite E.
    destruct (Nat.eqb_spec g f) as [->|_]; [congruence|]. apply IH.
Qed.

Lemma find_fun_bound : forall mm p f, hid mm p -> forall j k, below p j -> below p k ->
  find_fun mm j p f = find_fun mm k p f.
Proof.
  intros mm p f H. induction H as [|a g ps body bfp ffp lexl dynl E Lg Hl H IH]; intros j k Hj Hk.
  - now destruct j, k.
  - cbn in Hj, Hk. destruct j as [|j]; [lia|]. destruct k as [|k]; [lia|]. cbn. rewrite E.
    destruct (Nat.eqb g f); [reflexivity|].
    apply IH; (eapply below_le; [exact Hl|lia]).
Qed.

Lemma find_group : forall mm bfp ffp rest fns p k f,
  grouprel mm bfp ffp rest fns p -> hid mm rest -> below p k ->
  match assoc f fns with
  | Some (ps, body) => find_fun mm k p f = Some (ps, body, bfp, ffp)
  | None => find_fun mm k p f = find_fun mm k rest f
  end.
Proof.
  intros mm bfp ffp rest fns p k f H Hr. revert k.
  induction H as [|g ps body fns a lexl dynl E Lg Hl H IH]; intros k Hb.
  - reflexivity.
  - assert (below rest a) as Hra by (eapply grouprel_rest; eauto).
    cbn in Hb. destruct k as [|k]; [lia|]. cbn [find_fun assoc]. rewrite E.
    destruct (Nat.eqb_spec g f) as [->|Hn]; [reflexivity|].
    assert (below lexl k) as Hlk by (eapply below_le; [exact Hl|lia]).
    specialize (IH k Hlk).
    destruct (assoc f fns) as [[ps1 body1]|]; [exact IH|]. rewrite IH.
    change (find_fun mm k rest f = find_fun mm (S k) rest f).
    apply find_fun_bound; [exact Hr| |]; (eapply below_le; [exact Hra|lia]).
Qed.

Lemma inl_In : forall x l, inl x l = true <-> In x l.
Proof.
  intros x l. unfold inl. rewrite existsb_exists. split.
  - intros (y & H & E). apply Nat.eqb_eq in E. now subst.
  - intros H. exists x. now rewrite Nat.eqb_refl.
Qed.

Lemma nodupb_NoDup : forall l, nodupb l = true -> NoDup l.
Proof.
  induction l as [|x l IH]; intros H; [constructor|].
  cbn in H. apply andb_prop in H. destruct H as [H1 H2]. constructor.
  - intros Hi. apply inl_In in Hi. now rewrite Hi in H1.
  - now apply IH.
Qed.

Lemma assoc_none : forall A f (l : list (nat * A)), assoc f l = None <-> ~ In f (map fst l).
Proof.
  induction l as [|[g a] l IH]; cbn; [tauto|].
  destruct (Nat.eqb_spec g f) as [->|Hn].
  - split; [discriminate|tauto].
  - rewrite IH. intuition.
Qed.

Lemma assoc_In : forall A f (a : A) l, assoc f l = Some a -> In (f, a) l.
Proof.
  induction l as [|[g b] l IH]; cbn; [discriminate|].
  destruct (Nat.eqb_spec g f) as [->|Hn].
  - intros [= ->]. now left.
  - auto.
Qed.

Lemma In_assoc : forall A f (a : A) l, NoDup (map fst l) -> In (f, a) l -> assoc f l = Some a.
Proof.
  induction l as [|[g b] l IH]; cbn; intros N H; [destruct H|].
  inversion N as [|? ? N1 N2]; subst. destruct H as [H|H].
  - injection H as -> ->. now rewrite Nat.eqb_refl.
  - destruct (Nat.eqb_spec g f) as [->|Hn]; [|auto].
    exfalso. apply N1. apply in_map_iff. now exists (f, a).
Qed.

Lemma assoc_rev : forall A f (l : list (nat * A)), NoDup (map fst l) -> assoc f (rev l) = assoc f l.
Proof.
  intros A f l N. destruct (assoc f l) as [a|] eqn:E.
  - apply In_assoc.
    + rewrite map_rev. now apply NoDup_rev.
    + apply in_rev. rewrite rev_involutive. now apply assoc_In.
  - apply assoc_none in E. apply assoc_none. intros H. apply E.
    rewrite map_rev in H. now apply in_rev.
Qed.

(* Local functions whose bodies are good. *)
Inductive goodfe : list nat -> fenv -> Prop :=
| gf_end : goodfe [] FEnd
| gf_group : forall (rec : bool) ds e b fs fe,
    NoDup (map fst ds) ->
    (forall f ps body, In (f, (ps, body)) ds -> NoDup ps /\
       forallb (good [f] (if rec then map fst ds ++ fs else fs)) body = true) ->
    goodfe fs fe ->
    goodfe (map fst ds ++ fs) (FGroup rec ds e b fe).

Lemma flookup_none : forall fs fe f, goodfe fs fe -> flookup f fe = None -> ~ In f fs.
Proof.
  intros fs fe f H. induction H as [|rec ds e b fs fe N B H IH]; cbn; intros E.
  - tauto.
  - destruct (assoc f ds) as [[ps body]|] eqn:A; [discriminate|].
    rewrite in_app_iff. apply assoc_none in A. intros [Hi|Hi]; [contradiction|].
    now apply IH.
Qed.

Lemma find_fun_ok : forall mm m fs fe p k f e ps body e' b' fe',
  fenvrel mm m fe p -> goodfe fs fe -> below p k -> fsuffix e fe ->
  flookup f fe = Some (ps, body, e', b', fe') ->
  exists bfp ffp fs',
    find_fun mm k p f = Some (ps, body, bfp, ffp) /\
    envrel mm m e' bfp /\ fenvrel mm m fe' ffp /\ (forall z, below p z -> below ffp z) /\
    fsuffix e' fe' /\ (exists pre, e = pre ++ e') /\
    goodfe fs' fe' /\ NoDup ps /\ forallb (good [f] fs') body = true.
Proof.
  intros mm m fs fe p k f e ps body e' b' fe' H G. revert p k e H.
  induction G as [|rec ds e0 b fs fe N B G IH]; intros p k e H Hb Hs E; [discriminate|].
  inversion H as [|? ? ? ? ? bfp rest ? Hg He Hf]; subst.
  cbn in E, Hs. destruct Hs as [Hpre Hs].
  pose proof (find_group _ _ _ _ _ _ k f Hg (fenvrel_hid _ _ _ _ Hf) Hb) as F.
  rewrite assoc_rev in F by exact N.
  destruct (assoc f ds) as [[ps0 body0]|] eqn:A.
  - injection E as <- <- <- <- <-. apply assoc_In in A. destruct (B _ _ _ A) as [Np Gb].
    destruct rec.
    + exists bfp, p, (map fst ds ++ fs). split; [exact F|]. split; [exact He|].
      split; [exact H|]. split; [auto|].
      split; [split; [now exists []|exact Hs]|]. split; [exact Hpre|].
      split; [now constructor|]. split; assumption.
    + exists bfp, rest, fs. split; [exact F|]. split; [exact He|]. split; [exact Hf|].
      split; [intros z Hz; eapply grouprel_rest; eauto|]. split; [exact Hs|]. repeat split; assumption.
  - destruct (IH rest k e0 Hf (grouprel_rest _ _ _ _ _ _ _ Hg Hb) Hs E)
      as (bf1 & ff1 & fs1 & F1 & R1 & R2 & R3 & R4 & (pre & R5) & R6 & R7 & R8).
    destruct Hpre as (pre0 & ->).
    exists bf1, ff1, fs1. split; [congruence|]. split; [assumption|]. split; [assumption|].
    split; [intros z Hz; apply R3; eapply grouprel_rest; eauto|]. split; [assumption|].
    split; [|auto]. exists (pre0 ++ pre). subst e0. now rewrite app_assoc.
Qed.

(* ------------------------------------------------------------------ *)
(* A state of the interpreter that stands for a state of the text *)

Record base (m : amap) e fe (sc : slist) s c : Prop := {
  b_map : maps m s (mem c) (vsp c);
  b_env : envrel (mem c) m e (bindfp c);
  b_fenv : fenvrel (mem c) m fe (fletfp c);
  b_flt : below (fletfp c) (vsp c);
  b_suf : fsuffix e fe;
  b_spec : specrel (mem c) sc (sbindfp c);
  b_slt : below (sbindfp c) (vsp c);
  b_dyn : dyn c = sdyn s;
  b_wo : wo c = swo s
}.

Record blk (bl : blist) s c : Prop := {
  k_rel : blkrel (mem c) bl (blkfp c);
  k_lt : below (blkfp c) (vsp c);
  k_ids : Forall (fun i => i < nb s) (bids bl)
}.

Definition inv m e fe bl sc s c : Prop := base m e fe sc s c /\ blk bl s c.

(* What running a form keeps. *)
Record mid (m : amap) c s s' c' : Prop := {
  d_sim : similar (mem c) (mem c') (vsp c);
  d_map : maps m s' (mem c') (vsp c);
  d_sb : sbindfp c' = sbindfp c;
  d_blk : blkfp c' = blkfp c;
  d_dyn : dyn c' = sdyn s';
  d_wo : wo c' = swo s';
  d_nb : nb s <= nb s'
}.

Record jump (m : amap) (bl : blist) (sc : slist) c s (id a : nat) s' c' : Prop := {
  j_in : exists n, In (n, id, a) bl;
  j_sim : similar (mem c) (mem c') (vsp c);
  j_map : maps m s' (mem c') (vsp c);
  j_sb : sbindfp c' = after a sc;
  j_dyn : dyn c' = undo a sc (sdyn s');
  j_wo : wo c' = swo s';
  j_nb : nb s <= nb s'
}.

(* The outcomes agree; [post] says what holds of a normal end. *)
Definition agree (m : amap) (bl : blist) (sc : slist) c s (post : state -> ctx -> Prop)
  (r : option (out V W)) (ir : option (iout V W)) : Prop :=
  match r, ir with
  | None, None => True
  | Some Err, Some IErr => True
  | Some (Val v s'), Some (IVal v' c') => v = v' /\ post s' c'
  | Some (Exit id v s'), Some (IJmp a v' c') => v = v' /\ jump m bl sc c s id a s' c'
  | _, _ => False
  end.

Definition simm m bl sc c s := agree m bl sc c s (mid m c s).
Definition simw m bl sc c s :=
  agree m bl sc c s (fun s' c' => mid m c s s' c' /\ bindfp c' = bindfp c).
Definition sim m bl sc c s :=
  agree m bl sc c s (fun s' c' => mid m c s s' c' /\ bindfp c' = bindfp c /\
                                  vsp c' = vsp c /\ fletfp c' = fletfp c).

Lemma agree_weaken : forall m bl sc c s (p q : state -> ctx -> Prop) r ir,
  (forall s' c', p s' c' -> q s' c') ->
  agree m bl sc c s p r ir -> agree m bl sc c s q r ir.
Proof.
  intros m bl sc c s p q [[v s'|id v s'|]|] [[v' c'|a v' c'|]|] Hpq H; cbn in *; try tauto.
  destruct H; auto.
Qed.

Lemma sim_simw : forall m bl sc c s r ir, sim m bl sc c s r ir -> simw m bl sc c s r ir.
Proof. intros m bl sc c s r ir. apply agree_weaken. tauto. Qed.

Lemma simw_simm : forall m bl sc c s r ir, simw m bl sc c s r ir -> simm m bl sc c s r ir.
Proof. intros m bl sc c s r ir. apply agree_weaken. tauto. Qed.

Lemma maps_lt : forall m s mm b, maps m s mm b -> forall a l, In (a, l) m -> a < b.
Proof. intros m s mm b M a l H. apply (mp_val _ _ _ _ M) in H. apply H. Qed.

Lemma maps_sto : forall m s s' mm b, sto s = sto s' -> maps m s mm b -> maps m s' mm b.
Proof. intros m s s' mm b E [M1 M2]. split; [|exact M2]. now rewrite <- E. Qed.

Lemma maps_le : forall m s mm b b', maps m s mm b -> b <= b' -> maps m s mm b'.
Proof.
  intros m s mm b b' [M1 M2] L. split; [|exact M2].
  intros a l H. destruct (M1 a l H) as [H1 H2]. split; [lia|exact H2].
Qed.

Lemma mid_trans : forall m c s c1 s1 c2 s2,
  vsp c <= vsp c1 -> mid m c s s1 c1 -> mid m c1 s1 s2 c2 -> maps m s2 (mem c2) (vsp c) ->
  mid m c s s2 c2.
Proof.
  intros m c s c1 s1 c2 s2 L [A1 A2 A3 A4 A5 A6 A7] [B1 B2 B3 B4 B5 B6 B7] M.
  split; try congruence; try lia; try exact M.
  eapply similar_trans; [exact A1|]. eapply similar_le; [exact B1|exact L].
Qed.

Lemma maps_down : forall m s0 mm0 s mm b b',
  maps m s0 mm0 b -> maps m s mm b' -> maps m s mm b.
Proof.
  intros m s0 mm0 s mm b b' M0 [M1 M2]. split; [|exact M2].
  intros a l H. split; [eapply maps_lt; eauto|]. apply M1 in H. apply H.
Qed.

Lemma inv_mid : forall m e fe bl sc s c s' c',
  inv m e fe bl sc s c -> mid m c s s' c' -> bindfp c' = bindfp c ->
  vsp c <= vsp c' -> fletfp c' = fletfp c -> inv m e fe bl sc s' c'.
Proof.
  intros m e fe bl sc s c s' c' [B K] D Hb Hv Hf. destruct B, K, D.
  split; split.
  - eapply maps_le; eauto.
  - rewrite Hb. eapply envrel_similar; [exact (maps_lt _ _ _ _ d_map0)|exact d_sim0|assumption].
  - rewrite Hf. eapply fenvrel_similar; [exact (maps_lt _ _ _ _ d_map0)|exact d_sim0|assumption|assumption].
  - rewrite Hf. eapply below_le; eauto.
  - assumption.
  - rewrite d_sb0. eapply specrel_similar; eauto.
  - rewrite d_sb0. eapply below_le; eauto.
  - assumption.
  - assumption.
  - rewrite d_blk0. eapply blkrel_similar; eauto.
  - rewrite d_blk0. eapply below_le; eauto.
  - eapply Forall_impl; [|exact k_ids0]. cbn. intros; lia.
Qed.

Lemma mid_refl : forall m e fe sc s c, base m e fe sc s c -> mid m c s s c.
Proof. intros m e fe sc s c []. split; auto using similar_refl. Qed.

(* Lifting from a later state with a longer stack *)
Lemma agree_lift : forall m bl sc c s c1 s1 (p q : state -> ctx -> Prop) r ir,
  maps m s (mem c) (vsp c) ->
  similar (mem c) (mem c1) (vsp c) -> vsp c <= vsp c1 -> nb s <= nb s1 ->
  (forall s' c', p s' c' -> q s' c') ->
  agree m bl sc c1 s1 p r ir -> agree m bl sc c s q r ir.
Proof.
  intros m bl sc c s c1 s1 p q r ir M D L N Hpq H.
  destruct r as [[v s'|id v s'|]|]; destruct ir as [[v' c'|a v' c'|]|]; cbn in *; try tauto.
  - destruct H; auto.
  - destruct H as [-> J]. split; [reflexivity|]. destruct J. split; auto.
    + eapply similar_trans; [exact D|]. eapply similar_le; eauto.
    + eapply maps_down; eauto.
    + lia.
Qed.

Lemma agree_bind : forall m bl sc c s (p q : state -> ctx -> Prop) r ir k ik,
  agree m bl sc c s p r ir ->
  (forall v s' c', p s' c' -> agree m bl sc c s q (k v s') (ik v c')) ->
  agree m bl sc c s q (bindo r k) (ibind ir ik).
Proof.
  intros m bl sc c s p q r ir k ik H Hk.
  destruct r as [[v s'|id v s'|]|]; destruct ir as [[v' c'|a v' c'|]|]; cbn in *; try tauto.
  destruct H as [<- H]. now apply Hk.
Qed.

Lemma simw_lift : forall m bl sc c s c1 s1 r ir,
  mid m c s s1 c1 -> maps m s (mem c) (vsp c) -> bindfp c1 = bindfp c -> vsp c <= vsp c1 ->
  simw m bl sc c1 s1 r ir -> simw m bl sc c s r ir.
Proof.
  intros m bl sc c s c1 s1 r ir D M Hb L. apply agree_lift; try assumption.
  - apply D.
  - apply D.
  - intros s' c' [D' Hb']. split; [|congruence].
    eapply mid_trans; eauto. eapply maps_down; [exact M|apply D'].
Qed.

Lemma simm_lift : forall m bl sc c s c1 s1 r ir,
  mid m c s s1 c1 -> maps m s (mem c) (vsp c) -> vsp c <= vsp c1 ->
  simm m bl sc c1 s1 r ir -> simm m bl sc c s r ir.
Proof.
  intros m bl sc c s c1 s1 r ir D M L. apply agree_lift; try assumption.
  - apply D.
  - apply D.
  - intros s' c' D'. eapply mid_trans; eauto. eapply maps_down; [exact M|apply D'].
Qed.

(* Running one form after another *)
Lemma sim_bind : forall m e fe bl sc c s r ir k ik,
  inv m e fe bl sc s c ->
  sim m bl sc c s r ir ->
  (forall v s' c', inv m e fe bl sc s' c' -> vsp c' = vsp c -> fletfp c' = fletfp c ->
     bindfp c' = bindfp c -> sim m bl sc c' s' (k v s') (ik v c')) ->
  sim m bl sc c s (bindo r k) (ibind ir ik).
Proof.
  intros m e fe bl sc c s r ir k ik I H Hk. eapply agree_bind; [exact H|].
  intros v s' c' (D & Hb & Hv & Hf).
  assert (inv m e fe bl sc s' c') as I' by (eapply inv_mid; eauto; lia).
  specialize (Hk v s' c' I' Hv Hf Hb). revert Hk. apply agree_lift; try (apply I); try (apply D).
  - lia.
  - intros s2 c2 (D2 & Hb2 & Hv2 & Hf2). split; [|repeat split; congruence].
    assert (vsp c <= vsp c') as L by lia.
    apply (mid_trans _ _ _ _ _ _ _ L D D2). rewrite <- Hv. apply D2.
Qed.

Lemma simw_bind : forall m e fe bl sc c s r ir k ik,
  inv m e fe bl sc s c ->
  sim m bl sc c s r ir ->
  (forall v s' c', inv m e fe bl sc s' c' -> vsp c' = vsp c -> fletfp c' = fletfp c ->
     bindfp c' = bindfp c -> mid m c s s' c' -> simw m bl sc c' s' (k v s') (ik v c')) ->
  simw m bl sc c s (bindo r k) (ibind ir ik).
Proof.
  intros m e fe bl sc c s r ir k ik I H Hk. eapply agree_bind; [exact H|].
  intros v s' c' (D & Hb & Hv & Hf).
  assert (inv m e fe bl sc s' c') as I' by (eapply inv_mid; eauto; lia).
  specialize (Hk v s' c' I' Hv Hf Hb D).
  apply (simw_lift _ _ _ _ _ _ _ _ _ D (b_map _ _ _ _ _ _ (proj1 I)) Hb); [lia|exact Hk].
Qed.

(* --- pushes ---------------------------------------------------------- *)

Lemma push_mid : forall m e fe sc s c f, base m e fe sc s c -> mid m c s s (push c f).
Proof.
  intros m e fe sc s c f B. pose proof (similar_poke (mem c) (vsp c) f (vsp c) (le_n _)) as P.
  destruct B. split; cbn; auto.
  split; [|apply b_map0]. intros a l H.
  destruct (mp_val _ _ _ _ b_map0 _ _ H) as (L & d & lx & x & v & E & Hn).
  split; [exact L|]. exists d, lx, x, v. rewrite poke_other by lia. auto.
Qed.

Lemma push_inv : forall m e fe bl sc s c f, inv m e fe bl sc s c -> inv m e fe bl sc s (push c f).
Proof.
  intros m e fe bl sc s c f I. eapply inv_mid; [exact I|eapply push_mid; apply I| | |]; cbn; auto.
Qed.

Lemma mid_top : forall m c s s' c' v f,
  mid m c s s' c' -> mid m c s s' (set_fletfp (set_vsp c' v) f).
Proof. intros m c s s' c' v f []. split; auto. Qed.

(* ufuncall: the call frame goes, the local functions come back *)
Lemma ufuncall_sim : forall m e fe bl sc c s r ir,
  inv m e fe bl sc s c ->
  simw m bl sc (push c FCall) s r ir ->
  sim m bl sc c s r (ibind ir (fun v c' =>
    Some (IVal v (set_fletfp (set_vsp c' (vsp c)) (fletfp c))))).
Proof.
  intros m e fe bl sc c s r ir I H.
  apply simw_lift with (c := c) (s := s) in H; [| | | |]; cbn; auto.
  - destruct r as [[v s'|id v s'|]|]; destruct ir as [[v' c'|a v' c'|]|]; cbn in *; try tauto.
    destruct H as [-> [D Hb]]. split; [reflexivity|]. split; [|auto].
    apply (mid_top _ _ _ _ _ (vsp c) (fletfp c) D).
  - eapply push_mid; apply I.
  - apply I.
Qed.

(* ------------------------------------------------------------------ *)
(* Variables *)

Lemma set_nth_same : forall (l : list V) i v w, nth_error l i = Some w -> nth_error (set_nth l i v) i = Some v.
Proof. induction l as [|a l IH]; intros [|i] v w H; cbn in *; try discriminate; [reflexivity|eauto]. Qed.

Lemma set_nth_other : forall (l : list V) i j v, i <> j -> nth_error (set_nth l i v) j = nth_error l j.
Proof. induction l as [|a l IH]; intros [|i] [|j] v H; cbn; try reflexivity; [contradiction|]. apply IH. congruence. Qed.

Lemma envrel_kind : forall mm m e p x pl, envrel mm m e p -> assoc x e = Some pl -> kinds x = Variable_.
Proof.
  intros mm m e p x pl H. induction H as [|y l e a d lx v E Hi Hl Hk H IH]; cbn; [discriminate|].
  destruct (Nat.eqb_spec y x) as [->|_]; auto.
Qed.

Lemma getval_ok : forall m e fe sc s c x, base m e fe sc s c ->
  getval V W kinds c x = read V W kinds e x s.
Proof.
  intros m e fe sc s c x []. unfold getval, read, proclaimed.
  assert (below (bindfp c) (S (vsp c))) as Hb.
  { eapply below_le; [eapply envrel_below; eauto|lia]. }
  pose proof (find_var_ok _ _ _ _ _ x b_env0 Hb) as F.
  destruct (assoc x e) as [pl|] eqn:A.
  - rewrite (envrel_kind _ _ _ _ _ _ b_env0 A).
    destruct F as (l & a & d & lx & v & -> & Hi & E & ->).
    destruct (mp_val _ _ _ _ b_map0 _ _ Hi) as (_ & d' & lx' & x' & v' & E' & N).
    rewrite E in E'. injection E' as -> -> -> ->. now rewrite N.
  - rewrite F. rewrite b_dyn0. now destruct (kinds x).
Qed.

Lemma setd_mid : forall m e fe sc s c x v, base m e fe sc s c ->
  mid m c s (setd s x v) (set_dyn c (upd (dyn c) x v)).
Proof.
  intros m e fe sc s c x v []. split; cbn; auto using similar_refl.
  - eapply maps_sto; [|exact b_map0]. reflexivity.
  - now rewrite b_dyn0.
Qed.

Lemma setval_ok : forall m e fe sc s c x v, base m e fe sc s c ->
  mid m c s (write V W kinds e x v s) (setval V W kinds c x v) /\
  bindfp (setval V W kinds c x v) = bindfp c /\ vsp (setval V W kinds c x v) = vsp c /\
  fletfp (setval V W kinds c x v) = fletfp c.
Proof.
  intros m e fe sc s c x v B. pose proof (setd_mid _ _ _ _ _ _ x (Some v) B) as SD.
  destruct B. unfold setval, write, ScopeLang.proclaimed.
  assert (below (bindfp c) (S (vsp c))) as Hb.
  { eapply below_le; [eapply envrel_below; eauto|lia]. }
  pose proof (find_var_ok _ _ _ _ _ x b_env0 Hb) as F.
  destruct (assoc x e) as [pl|] eqn:A.
  - rewrite (envrel_kind _ _ _ _ _ _ b_env0 A).
    destruct F as (l & a & d & lx & w & -> & Hi & E & ->). rewrite E.
    destruct (mp_val _ _ _ _ b_map0 _ _ Hi) as (La & d' & lx' & x' & v' & E' & N).
    rewrite E in E'. injection E' as -> -> -> ->.
    split; [|auto]. split; cbn; auto.
    + intros b Hlb. unfold poke. destruct (Nat.eqb_spec b a) as [->|Hn]; [|now left].
      right. rewrite E. eauto 8.
    + split; [|apply b_map0]. intros a' l' Hi'.
      destruct (mp_val _ _ _ _ b_map0 _ _ Hi') as (La' & d2 & lx2 & x2 & v2 & E2 & N2).
      split; [exact La'|]. cbn. unfold poke.
      destruct (Nat.eqb_spec a' a) as [->|Hn].
      * assert (l = l') as <- by (apply (mp_fun _ _ _ _ b_map0 _ _ _ _ Hi Hi'); reflexivity).
        exists d', lx', x', v. split; [reflexivity|]. eapply set_nth_same; eauto.
      * exists d2, lx2, x2, v2. split; [exact E2|]. rewrite set_nth_other; [exact N2|].
        intros ->. apply Hn. symmetry. apply (mp_fun _ _ _ _ b_map0 _ _ _ _ Hi Hi'). reflexivity.
  - rewrite F. destruct (kinds x); auto.
Qed.

(* ------------------------------------------------------------------ *)
(* Forms, given that their parts agree *)

Section Step.
Variable n0 : nat.
Notation ev := (eval V W nilv isnil kinds defs prim n0).
Notation iev := (ieval V W nilv isnil kinds defs prim n0).

Definition agrees (ev : env -> fenv -> benv -> exp -> state -> option (out V W))
                  (iev : exp -> ctx -> option (iout V W)) : Prop :=
  forall ex m e fe fs bl bh sc s c,
  good (bnames bl) fs ex = true -> goodfe fs fe -> inv m e fe bl sc s c ->
  sim m bl sc c s (ev e fe (map fst bl ++ bh) ex s) (iev ex c).

Hypothesis EV : agrees ev iev.

Lemma sim_val : forall m e fe bl sc s c v, inv m e fe bl sc s c ->
  sim m bl sc c s (Some (Val v s)) (Some (IVal v c)).
Proof. intros m e fe bl sc s c v I. cbn. split; [reflexivity|]. split; [eapply mid_refl; apply I|auto]. Qed.

Lemma progn_sim : forall l v m e fe fs bl bh sc s c,
  forallb (good (bnames bl) fs) l = true -> goodfe fs fe -> inv m e fe bl sc s c ->
  sim m bl sc c s (progn ev e fe (map fst bl ++ bh) l v s) (iprogn iev l v c).
Proof.
  induction l as [|a l IH]; intros v m e fe fs bl bh sc s c G F I.
  - cbn [progn iprogn]. eapply sim_val; eauto.
  - cbn in G. apply andb_prop in G. destruct G as [G1 G2]. cbn [progn iprogn].
    eapply sim_bind; [exact I|eapply EV; eauto|].
    intros v' s' c' I' _ _ _. eapply IH; eauto.
Qed.

Lemma loop_sim : forall k a l m e fe fs bl bh sc s c,
  good (bnames bl) fs a = true -> forallb (good (bnames bl) fs) l = true ->
  goodfe fs fe -> inv m e fe bl sc s c ->
  sim m bl sc c s (loop V W nilv isnil ev k e fe (map fst bl ++ bh) a l s)
                  (iloop V W nilv isnil iev k a l c).
Proof.
  induction k as [|k IH]; intros a l m e fe fs bl bh sc s c G1 G2 F I; [exact Logic.I|].
  cbn [loop iloop].
  eapply sim_bind; [exact I|eapply EV; eauto|].
  intros v' s' c' I' _ _ _. destruct (isnil v').
  - eapply sim_val; eauto.
  - eapply sim_bind; [exact I'|eapply progn_sim; eauto|].
    intros v2 s2 c2 I2 _ _ _. eapply IH; eauto.
Qed.

(* Values pushed from address a on *)
Fixpoint pushed mm (a : nat) (vs : list V) : Prop :=
  match vs with
  | [] => True
  | v :: vs => mm a = FArg v /\ pushed mm (S a) vs
  end.

Lemma pushed_similar : forall vs mm mm' a b, similar mm mm' b -> a + length vs <= b ->
  pushed mm a vs -> pushed mm' a vs.
Proof.
  induction vs as [|v vs IH]; intros mm mm' a b S L H; [exact I|].
  cbn in *. destruct H as [H1 H2]. split.
  - assert (mm' a = mm a) as ->; [|exact H1].
    apply shape_nobind; [apply S; lia|]. rewrite H1. discriminate.
  - eapply IH; eauto. lia.
Qed.

Lemma evals_sim : forall l m e fe fs bl bh sc s c n k ik,
  forallb (good (bnames bl) fs) l = true -> goodfe fs fe -> inv m e fe bl sc s c ->
  (forall vs s' c', length vs = length l -> inv m e fe bl sc s' c' ->
     pushed (mem c') (vsp c) vs -> vsp c' = vsp c + length vs ->
     bindfp c' = bindfp c -> fletfp c' = fletfp c -> mid m c s s' c' ->
     simw m bl sc c' s' (k vs s') (ik (n + length l) c')) ->
  simw m bl sc c s (evals ev e fe (map fst bl ++ bh) l s k) (ievals iev l n c ik).
Proof.
  induction l as [|a l IH]; intros m e fe fs bl bh sc s c n k ik G F I H.
  - cbn [evals ievals]. specialize (H [] s c eq_refl I Logic.I).
    rewrite <- (Nat.add_0_r n). apply H; auto; try (cbn; lia). eapply mid_refl; apply I.
  - cbn in G. apply andb_prop in G. destruct G as [G1 G2]. cbn [evals ievals].
    eapply simw_bind; [exact I|eapply EV; eauto|].
    intros v s1 c1 I1 Hv Hf Hb D1.
    pose proof (push_inv _ _ _ _ _ _ _ (FArg v) I1) as I2.
    pose proof (push_mid _ _ _ _ _ _ (FArg v) (proj1 I1)) as D2.
    eapply simw_lift; [exact D2|apply I1|reflexivity|cbn; lia|].
    eapply IH; eauto.
    intros vs s' c' Hl I' Pu Hv' Hb' Hf' D'. cbn in Hv', Hb', Hf', Pu.
    replace (S n + length l) with (n + length (a :: l)) by (cbn; lia).
    apply H; auto.
    + cbn. now rewrite Hl.
    + cbn. split; [|now rewrite <- Hv].
      assert (mem c' (vsp c1) = mem (push c1 (FArg v)) (vsp c1)) as E.
      { apply shape_nobind.
        - apply (d_sim _ _ _ _ _ D'). cbn. lia.
        - cbn. rewrite poke_same. discriminate. }
      rewrite <- Hv, E. cbn. apply poke_same.
    + cbn. lia.
    + congruence.
    + congruence.
    + assert (mid m c1 s1 s' c') as D3.
      { eapply mid_trans; [|exact D2|exact D'|].
        - cbn; lia.
        - eapply maps_down; [apply I1|apply D']. }
      eapply mid_trans; [|exact D1|exact D3|].
      * lia.
      * eapply maps_down; [apply I|apply D3].
Qed.

Lemma pushed_vals : forall vs c a, pushed (mem c) a vs -> argvals V W nilv c a (length vs) = vs.
Proof.
  induction vs as [|v vs IH]; intros c a H; [reflexivity|]. cbn in *. destruct H as [H1 H2].
  unfold argval. rewrite H1. f_equal. now apply IH.
Qed.

(* ------------------------------------------------------------------ *)
(* Bindings *)

(* A scope that bound variables from state c on has ended normally: the
   special bindings made are still in force. *)
Record open_ (m : amap) (sc : slist) c s s' c' : Prop := {
  o_sim : similar (mem c) (mem c') (vsp c);
  o_map : maps m s' (mem c') (vsp c);
  o_new : exists new, specrel (mem c') (new ++ sc) (sbindfp c') /\
            Forall (fun t => vsp c <= fst (fst t)) new /\
            undo 0 new (dyn c') = sdyn s';
  o_blk : blkfp c' = blkfp c;
  o_wo : wo c' = swo s';
  o_nb : nb s <= nb s'
}.

Lemma base_bind : forall m e fe sc s c x v,
  base m e fe sc s c -> kinds x = Variable_ ->
  base ((vsp c, length (sto s)) :: m) ((x, Loc (length (sto s))) :: e) fe sc
       (mkS (sto s ++ [v]) (sdyn s) (nb s) (swo s))
       (fastbind c x (Some v) (bindfp c)).
Proof.
  intros m e fe sc s c x v B Kx. pose proof B as B0. destruct B.
  pose proof (similar_poke (mem c) (vsp c) (FBind (bindfp c) (bindfp c) x (Some v)) (vsp c) (le_n _)) as P.
  assert (incl m ((vsp c, length (sto s)) :: m)) as Hi by (intros z; now right).
  split; cbn.
  - split.
    + intros a l [H|H].
      * injection H as <- <-. split; [lia|]. rewrite poke_same.
        do 4 eexists. split; [reflexivity|]. cbn. rewrite nth_error_app2 by lia.
        now rewrite Nat.sub_diag.
      * destruct (mp_val _ _ _ _ b_map0 _ _ H) as (L & d & lx & y & w & E & N).
        split; [lia|]. rewrite poke_other by lia. exists d, lx, y, w. split; [exact E|].
        cbn. rewrite nth_error_app1; [exact N|]. apply nth_error_Some. congruence.
    + intros a l a' l' [H|H] [H'|H'].
      * injection H as <- <-. injection H' as <- <-. tauto.
      * injection H as <- <-. destruct (mp_val _ _ _ _ b_map0 _ _ H') as (L & d & lx & y & w & E & N).
        assert (l' < length (sto s)) by (apply nth_error_Some; congruence). lia.
      * injection H' as <- <-. destruct (mp_val _ _ _ _ b_map0 _ _ H) as (L & d & lx & y & w & E & N).
        assert (l < length (sto s)) by (apply nth_error_Some; congruence). lia.
      * apply (mp_fun _ _ _ _ b_map0); assumption.
  - econstructor; [apply poke_same|now left| |exact Kx|].
    + eapply envrel_below; eauto.
    + eapply envrel_incl; [exact Hi|]. eapply envrel_similar; [eapply maps_lt; eauto|exact P|exact b_env0].
  - eapply fenvrel_incl; [exact Hi|].
    eapply fenvrel_similar; [eapply maps_lt; eauto|exact P|assumption|assumption].
  - eapply below_le; eauto.
  - now apply (fsuffix_app [_]).
  - eapply specrel_similar; eauto.
  - eapply below_le; eauto.
  - assumption.
  - assumption.
Qed.

Lemma bindspecial_eq : forall c x v, kinds x <> Variable_ ->
  bindspecial V W kinds c x v =
  set_sbindfp (set_dyn (push c (FSpec (sbindfp c) x (dyn c x))) (upd (dyn c) x v)) (Some (vsp c)).
Proof. intros c x v K. unfold bindspecial. destruct (kinds x); [contradiction|reflexivity|reflexivity]. Qed.

Lemma base_special : forall m e fe sc s c x v,
  base m e fe sc s c -> kinds x <> Variable_ ->
  base m e fe ((vsp c, x, sdyn s x) :: sc) (setd s x v) (bindspecial V W kinds c x v).
Proof.
  intros m e fe sc s c x v B Kx. rewrite bindspecial_eq by exact Kx.
  pose proof (push_mid _ _ _ _ _ _ (FSpec (sbindfp c) x (dyn c x)) B) as D.
  destruct D. destruct B. cbn in *.
  split; cbn.
  - eapply maps_sto; [|eapply maps_le; [exact d_map0|lia]]. reflexivity.
  - eapply envrel_similar; [eapply maps_lt; exact d_map0|exact d_sim0|assumption].
  - eapply fenvrel_similar; [eapply maps_lt; exact d_map0|exact d_sim0|assumption|assumption].
  - eapply below_le; [eassumption|lia].
  - assumption.
  - econstructor; [rewrite poke_same, b_dyn0; reflexivity|assumption|exact Kx|].
    eapply specrel_similar; eauto.
  - lia.
  - now rewrite b_dyn0.
  - assumption.
Qed.

(* vbind, when the form has not bound the variable already *)
Lemma vbind_ok : forall m e fe sc s c x v bf,
  base m e fe sc s c ->
  (forall y l a, In (y, Loc l) e -> In (a, l) m -> above (Some a) bf = true -> y <> x) ->
  vbind V W kinds c x v (bindfp c) bf =
  Some (if proclaimed x then (bindspecial V W kinds c x v, bindfp c)
        else (fastbind c x v (bindfp c), Some (vsp c))).
Proof.
  intros m e fe sc s c x v bf [] Hx. unfold vbind.
  rewrite (scan_ok _ _ _ _ _ _ _ b_env0); [| |exact Hx].
  - unfold ScopeLang.proclaimed, bindspecial, fastbind. destruct (kinds x); reflexivity.
  - eapply below_le; [eapply envrel_below; eauto|lia].
Qed.

(* The frames of the form that is binding hold none of these names. *)
Definition fresh (m : amap) e (bf : ptr) (xs : list nat) : Prop :=
  forall y l a, In (y, Loc l) e -> In (a, l) m -> above (Some a) bf = true -> ~ In y xs.

Lemma envrel_loc : forall mm m s b e p, envrel mm m e p -> maps m s mm b ->
  forall y l, In (y, Loc l) e -> l < length (sto s).
Proof.
  intros mm m s b e p He M. induction He as [|z k e0 a0 d lx w E Hi Hl Hk He IH]; intros y0 l0 H0; [destruct H0|].
  destruct H0 as [H0|H0]; [|eauto]. injection H0 as -> ->.
  destruct (mp_val _ _ _ _ M _ _ Hi) as (_ & ? & ? & ? & ? & _ & N).
  apply nth_error_Some. congruence.
Qed.

Lemma fresh_bind : forall m e fe sc s c bf x xs,
  base m e fe sc s c -> fresh m e bf (x :: xs) -> ~ In x xs ->
  fresh ((vsp c, length (sto s)) :: m) ((x, Loc (length (sto s))) :: e) bf xs.
Proof.
  intros m e fe sc s c bf x xs B Fr Nx y l a H1 H2 H3. destruct H1 as [H1|H1].
  - injection H1 as <- <-. exact Nx.
  - destruct H2 as [H2|H2].
    + injection H2 as <- <-. exfalso.
      pose proof (envrel_loc _ _ _ _ _ _ (b_env _ _ _ _ _ _ B) (b_map _ _ _ _ _ _ B) _ _ H1) as Q. lia.
    + intros Hy. eapply Fr; eauto. now right.
Qed.

Lemma fresh_tail : forall m e bf x xs, fresh m e bf (x :: xs) -> fresh m e bf xs.
Proof. intros m e bf x xs Fr y l a H1 H2 H3 H. eapply Fr; eauto. now right. Qed.

Lemma fresh_head : forall m e bf x xs, fresh m e bf (x :: xs) ->
  forall y l a, In (y, Loc l) e -> In (a, l) m -> above (Some a) bf = true -> y <> x.
Proof. intros m e bf x xs Fr y l a H1 H2 H3 ->. eapply Fr; eauto. now left. Qed.

Lemma fresh_start : forall m e e0 fe sc s c xs,
  base m e fe sc s c -> (exists pre, e = pre ++ e0) -> fresh m e0 (bindfp c) xs.
Proof.
  intros m e e0 fe sc s c xs [] (pre & ->) y l a H1 H2 H3 _.
  assert (above (Some a) (bindfp c) = false) by
    (eapply envrel_le; eauto; apply in_app_iff; right; exact H1).
  congruence.
Qed.

(* The relation between a scope of the text and the run of its body *)
Definition simo m bl sc c s := agree m bl sc c s (open_ m sc c s).

Lemma simo_special : forall m e fe bl sc s c x v r ir,
  base m e fe sc s c -> kinds x <> Variable_ ->
  Forall (fun t => snd t < vsp c) bl ->
  simo m bl ((vsp c, x, sdyn s x) :: sc) (bindspecial V W kinds c x v) (setd s x v) r ir ->
  simo m bl sc c s (restore x (sdyn s x) r) ir.
Proof.
  intros m e fe bl sc s c x v r ir B Kx Hbl H. rewrite bindspecial_eq in H by exact Kx.
  destruct r as [[w s'|id w s'|]|]; destruct ir as [[w' c'|a w' c'|]|]; cbn in *; try tauto.
  - destruct H as [-> O]. split; [reflexivity|]. destruct O. cbn in *.
    destruct o_new0 as (new & S & Fn & U).
    pose proof (similar_poke (mem c) (vsp c) (FSpec (sbindfp c) x (dyn c x)) (vsp c) (le_n _)) as P.
    split; cbn.
    + eapply similar_trans; [exact P|]. eapply similar_le; [exact o_sim0|lia].
    + eapply maps_sto; [|eapply maps_down; [apply B|exact o_map0]]. reflexivity.
    + exists (new ++ [(vsp c, x, sdyn s x)]). rewrite <- app_assoc. split; [exact S|]. split.
      * apply Forall_app. split; [|constructor; [cbn; lia|constructor]].
        eapply Forall_impl; [|exact Fn]. cbn. intros; lia.
      * rewrite undo_app by (apply Forall_forall; intros; lia). rewrite U. reflexivity.
    + exact o_blk0.
    + exact o_wo0.
    + exact o_nb0.
  - destruct H as [-> J]. split; [reflexivity|]. destruct J. cbn in *.
    pose proof (similar_poke (mem c) (vsp c) (FSpec (sbindfp c) x (dyn c x)) (vsp c) (le_n _)) as P.
    assert (a <= vsp c) as La.
    { destruct j_in0 as (n & Hn). rewrite Forall_forall in Hbl. specialize (Hbl _ Hn). cbn in Hbl. lia. }
    apply Nat.leb_le in La. rewrite La in *.
    split; cbn; auto.
    + eapply similar_trans; [exact P|]. eapply similar_le; [exact j_sim0|lia].
    + eapply maps_sto; [|eapply maps_down; [apply B|exact j_map0]]. reflexivity.
Qed.

Lemma simo_lexical : forall m m' bl sc s c x v lx st r ir,
  maps m s (mem c) (vsp c) -> incl m m' ->
  simo m' bl sc (fastbind c x v lx) (mkS st (sdyn s) (nb s) (swo s)) r ir ->
  simo m bl sc c s r ir.
Proof.
  intros m m' bl sc s c x v lx st r ir M Hi H.
  pose proof (similar_poke (mem c) (vsp c) (FBind (bindfp c) lx x v) (vsp c) (le_n _)) as P.
  assert (forall s' mm b, maps m' s' mm b -> maps m s' mm (vsp c)) as Q.
  { intros s' mm b [M1 M2]. split.
    - intros a l H1. split; [eapply maps_lt; eauto|]. apply M1. now apply Hi.
    - intros a l a' l' H1 H2. apply M2; now apply Hi. }
  destruct r as [[w s'|id w s'|]|]; destruct ir as [[w' c'|a w' c'|]|]; cbn in *; try tauto.
  - destruct H as [-> O]. split; [reflexivity|]. destruct O. cbn in *.
    destruct o_new0 as (new & S & Fn & U). split; auto.
    + eapply similar_trans; [exact P|]. eapply similar_le; [exact o_sim0|lia].
    + eapply Q; eauto.
    + exists new. split; [exact S|]. split; [|exact U].
      eapply Forall_impl; [|exact Fn]. cbn. intros; lia.
  - destruct H as [-> J]. split; [reflexivity|]. destruct J. cbn in *. split; auto.
    + eapply similar_trans; [exact P|]. eapply similar_le; [exact j_sim0|lia].
    + eapply Q; eauto.
Qed.

Lemma simm_simo : forall m bl e fe sc c s r ir, base m e fe sc s c ->
  simm m bl sc c s r ir -> simo m bl sc c s r ir.
Proof.
  intros m bl e fe sc c s r ir B. unfold simm, simo. apply agree_weaken. intros s' c' []. destruct B.
  split; auto. exists []. cbn. split; [|auto]. rewrite d_sb0. eapply specrel_similar; eauto.
Qed.

(* What is known where the body of a scope starts *)
Record inner (c : ctx) (s : state) (c' : ctx) (s' : state) : Prop := {
  n_sim : similar (mem c) (mem c') (vsp c);
  n_vsp : vsp c <= vsp c';
  n_blk : blkfp c' = blkfp c;
  n_flet : fletfp c' = fletfp c;
  n_nb : nb s <= nb s'
}.

Lemma inner_refl : forall c s, inner c s c s.
Proof. intros. split; auto using similar_refl. Qed.

Lemma inner_trans : forall c s c1 s1 c2 s2, inner c s c1 s1 -> inner c1 s1 c2 s2 -> inner c s c2 s2.
Proof.
  intros c s c1 s1 c2 s2 [] []. split; try congruence; try lia.
  eapply similar_trans; [eassumption|]. eapply similar_le; eauto.
Qed.

Lemma inner_special : forall c s x v, kinds x <> Variable_ ->
  inner c s (bindspecial V W kinds c x v) (setd s x v).
Proof.
  intros c s x v K. rewrite bindspecial_eq by exact K.
  split; cbn; auto. apply similar_poke. lia.
Qed.

Lemma inner_bind : forall c s x v lx st, inner c s (fastbind c x v lx) (mkS st (sdyn s) (nb s) (swo s)).
Proof. intros. split; cbn; auto. apply similar_poke. lia. Qed.

Lemma blk_inner : forall bl s c s' c', blk bl s c -> inner c s c' s' -> blk bl s' c'.
Proof.
  intros bl s c s' c' [] []. split.
  - rewrite n_blk0. eapply blkrel_similar; eauto.
  - rewrite n_blk0. eapply below_le; eauto.
  - eapply Forall_impl; [|exact k_ids0]. cbn. intros; lia.
Qed.

Lemma proclaimed_kind : forall x, proclaimed x = true <-> kinds x <> Variable_.
Proof. intros x. unfold ScopeLang.proclaimed. destruct (kinds x); split; congruence. Qed.

Lemma unproclaimed_kind : forall x, proclaimed x = false <-> kinds x = Variable_.
Proof. intros x. unfold ScopeLang.proclaimed. destruct (kinds x); split; congruence. Qed.

(* One binding, then the rest *)
Lemma scoped_sim : forall isdyn bl x v k ik bf xs m e fe sc s c,
  (forall y, isdyn y = proclaimed y) ->
  base m e fe sc s c -> fresh m e bf (x :: xs) -> ~ In x xs ->
  Forall (fun t => snd t < vsp c) bl ->
  (forall m' e' sc' s' c', base m' e' fe sc' s' c' -> inner c s c' s' -> fresh m' e' bf xs ->
     simo m' bl sc' c' s' (k e' s') (ik c' (bindfp c'))) ->
  simo m bl sc c s (scoped isdyn x v k e s)
    (match vbind V W kinds c x (Some v) (bindfp c) bf with
     | Some (c1, env1) => ik c1 env1
     | None => Some IErr
     end).
Proof.
  intros isdyn bl x v k ik bf xs m e fe sc s c Hd B Fr Nx Hbl Hk.
  rewrite (vbind_ok _ _ _ _ _ _ _ _ _ B (fresh_head _ _ _ _ _ Fr)).
  unfold scoped. rewrite Hd. destruct (proclaimed x) eqn:Px.
  - apply proclaimed_kind in Px. eapply simo_special; eauto.
    assert (bindfp c = bindfp (bindspecial V W kinds c x (Some v))) as ->
      by (rewrite bindspecial_eq by exact Px; reflexivity).
    apply Hk.
    + now apply base_special.
    + now apply inner_special.
    + eapply fresh_tail; eauto.
  - apply unproclaimed_kind in Px. eapply simo_lexical; [apply B| |apply Hk].
    + apply incl_tl, incl_refl.
    + now apply base_bind.
    + apply inner_bind.
    + eapply fresh_bind; eauto.
Qed.

Lemma binds_sim : forall isdyn bl k ik bf xs vs a m e fe sc s c,
  (forall y, isdyn y = proclaimed y) -> length vs = length xs -> NoDup xs ->
  pushed (mem c) a vs -> a + length vs <= vsp c ->
  base m e fe sc s c -> fresh m e bf xs -> Forall (fun t => snd t < vsp c) bl ->
  (forall m' e' sc' s' c', base m' e' fe sc' s' c' -> inner c s c' s' ->
     simo m' bl sc' c' s' (k e' s') (ik c')) ->
  simo m bl sc c s (binds isdyn (combine xs vs) k e s)
    (match ibinds V W nilv kinds xs a (bindfp c) bf c with
     | Some c3 => ik c3
     | None => Some IErr
     end).
Proof.
  intros isdyn bl k ik bf. induction xs as [|x xs IH]; intros vs a m e fe sc s c Hd Hl N Pu La B Fr Hbl Hk.
  - destruct vs; [|discriminate]. cbn. apply Hk; [exact B|apply inner_refl].
  - destruct vs as [|v vs]; [discriminate|]. cbn in Hl, Pu, La. destruct Pu as [P1 P2].
    inversion N as [|? ? N1 N2]; subst.
    cbn [combine binds ibinds]. unfold argval. rewrite P1.
    pose proof (scoped_sim isdyn bl x v (binds isdyn (combine xs vs) k)
      (fun c1 env1 => match ibinds V W nilv kinds xs (S a) env1 bf c1 with
                      | Some c3 => ik c3 | None => Some IErr end)
      bf xs m e fe sc s c Hd B Fr N1 Hbl) as S.
    destruct (vbind V W kinds c x (Some v) (bindfp c) bf) as [[c1 env1]|]; apply S; clear S;
    (intros m' e' sc' s' c' B' In' Fr'; eapply IH; eauto;
     [eapply pushed_similar; [apply In'| |exact P2]; lia
     |destruct In'; lia
     |eapply Forall_impl; [|exact Hbl]; destruct In'; intros; lia
     |intros; eapply Hk; eauto using inner_trans]).
Qed.

Lemma params_sim : forall bl k ik bf xs vs a m e fe sc s c,
  length vs = length xs -> NoDup xs ->
  pushed (mem c) a vs -> a + length vs <= vsp c ->
  base m e fe sc s c -> fresh m e bf xs -> Forall (fun t => snd t < vsp c) bl ->
  (forall m' e' sc' s' c', base m' e' fe sc' s' c' -> inner c s c' s' ->
     simo m' bl sc' c' s' (k e' s') (ik c')) ->
  simo m bl sc c s (binds proclaimed (combine xs vs) k e s)
    (match iparams V W nilv kinds xs a (length vs) (bindfp c) bf c with
     | Some c3 => ik c3
     | None => Some IErr
     end).
Proof.
  intros bl k ik bf. induction xs as [|x xs IH]; intros vs a m e fe sc s c Hl N Pu La B Fr Hbl Hk.
  - destruct vs; [|discriminate]. cbn. apply Hk; [exact B|apply inner_refl].
  - destruct vs as [|v vs]; [discriminate|]. cbn in Hl, Pu, La. destruct Pu as [P1 P2].
    inversion N as [|? ? N1 N2]; subst.
    cbn [combine binds iparams length]. unfold argval. rewrite P1.
    pose proof (scoped_sim proclaimed bl x v (binds proclaimed (combine xs vs) k)
      (fun c1 env1 => match iparams V W nilv kinds xs (S a) (length vs) env1 bf c1 with
                      | Some c3 => ik c3 | None => Some IErr end)
      bf xs m e fe sc s c (fun _ => eq_refl) B Fr N1 Hbl) as S.
    destruct (vbind V W kinds c x (Some v) (bindfp c) bf) as [[c1 env1]|]; apply S; clear S;
    (intros m' e' sc' s' c' B' In' Fr'; eapply IH; eauto;
     [eapply pushed_similar; [apply In'| |exact P2]; lia
     |destruct In'; lia
     |eapply Forall_impl; [|exact Hbl]; destruct In'; intros; lia
     |intros; eapply Hk; eauto using inner_trans]).
Qed.

Lemma params_short : forall xs n a env bf c, n <> length xs ->
  iparams V W nilv kinds xs a n env bf c = None.
Proof.
  induction xs as [|x xs IH]; intros n a env bf c H; destruct n as [|n]; cbn in *;
    try reflexivity; [contradiction|].
  destruct (vbind V W kinds c x _ env bf) as [[c1 env1]|]; [|reflexivity].
  apply IH. congruence.
Qed.

(* let and lambda put the stack and the special variables back *)
Lemma close_sim : forall m e fe bl sc c s bf sp limit r ir,
  base m e fe sc s c -> limit <= vsp c -> below (sbindfp c) limit ->
  simo m bl sc c s r ir ->
  agree m bl sc c s (fun s' c' => mid m c s s' c' /\ bindfp c' = bf)
    r (ibind ir (fun v c' => Some (IVal v
         (unbindspecial V W kinds limit (set_vsp (set_bindfp c' bf) sp))))).
Proof.
  intros m e fe bl sc c s bf sp limit r ir B Ll Hs H.
  destruct r as [[w s'|id w s'|]|]; destruct ir as [[w' c'|a w' c'|]|]; cbn in *; try tauto.
  destruct H as [-> O]. split; [reflexivity|]. destruct O. destruct o_new0 as (new & Sn & Fn & U).
  rewrite (unbindspecial_ok limit (new ++ sc)) by exact Sn.
  assert (Forall (fun t : nat * nat * option V => limit <= fst (fst t)) new) as Fn'
    by (eapply Forall_impl; [|exact Fn]; cbn; intros; lia).
  rewrite after_app by exact Fn'. rewrite undo_app by exact Fn'.
  destruct B. rewrite (specrel_head _ _ _ _ b_spec0 Hs).
  rewrite undo_none by (eapply specrel_lt; eauto).
  split; [|reflexivity]. split; cbn; auto.
Qed.

Lemma declare_ok : forall decl c env, forallb (special kinds) decl = true ->
  declare V W kinds decl c env = Some (c, env).
Proof.
  induction decl as [|x decl IH]; intros c env H; [reflexivity|]. cbn in *.
  apply andb_prop in H. destruct H as [H1 H2]. unfold special in H1.
  destruct (kinds x); try discriminate. now apply IH.
Qed.

Lemma declared_ok : forall decl, forallb (special kinds) decl = true -> declared kinds decl = [].
Proof.
  induction decl as [|x decl IH]; intros H; [reflexivity|]. unfold declared in *. cbn in *.
  apply andb_prop in H. destruct H as [H1 H2]. unfold special in H1.
  destruct (kinds x); try discriminate. now apply IH.
Qed.

Lemma isdyn_ok : forall decl, forallb (special kinds) decl = true ->
  forall y, proclaimed y || inl y decl = proclaimed y.
Proof.
  intros decl H y. destruct (inl y decl) eqn:E; [|apply orb_false_r].
  apply inl_In in E. rewrite forallb_forall in H. apply H in E. unfold special in E.
  unfold ScopeLang.proclaimed. destruct (kinds y); [discriminate|reflexivity|reflexivity].
Qed.

Lemma blkrel_lt : forall mm bl p b, blkrel mm bl p -> below p b -> Forall (fun t => snd t < b) bl.
Proof.
  intros mm bl p b H. induction H as [|n id a bl dk lk E L F H IH]; intros Hb; constructor.
  - exact Hb.
  - apply IH. cbn in Hb. eapply below_le; [exact L|lia].
Qed.

Lemma firstn_fst : forall (bs : list (nat * exp)), firstn (0 + length (map snd bs)) (map fst bs) = map fst bs.
Proof. intros. rewrite map_length, <- (map_length fst bs). apply firstn_all. Qed.

Lemma let_sim : forall bs decl l m e fe fs bl bh sc s c,
  good (bnames bl) fs (Let bs decl l) = true -> goodfe fs fe -> inv m e fe bl sc s c ->
  simw m bl sc c s
    (evals ev e fe (map fst bl ++ bh) (map snd bs) s (fun vs s =>
       binds (fun x => proclaimed x || inl x decl) (combine (map fst bs) vs)
         (fun e s => progn ev (declared kinds decl ++ e) fe (map fst bl ++ bh) l nilv s) e s))
    (iparlet V W nilv kinds iev bs decl l c).
Proof.
  intros bs decl l m e fe fs bl bh sc s c G F I. cbn [ScopeSpec.good] in G.
  repeat (apply andb_prop in G as [G ?]). apply nodupb_NoDup in G.
  unfold iparlet. rewrite declare_ok by assumption.
  eapply evals_sim; eauto.
  { rewrite forallb_map in * || idtac. rewrite forallb_forall in *. intros a Ha.
    apply in_map_iff in Ha. destruct Ha as (q & <- & Hq). auto. }
  intros vs s' c' Hl I' Pu Hv Hb Hf D. rewrite firstn_fst.
  rewrite map_length in Hl.
  apply agree_weaken with (p := fun s2 c2 => mid m c' s' s2 c2 /\ bindfp c2 = bindfp c).
  { intros s2 c2 [D2 Hb2]. split; [exact D2|congruence]. }
  assert (below (sbindfp c') (vsp c)) as Hs.
  { rewrite (d_sb _ _ _ _ _ D). apply I. }
  pose proof (binds_sim (fun x => proclaimed x || inl x decl) bl
    (fun e s => progn ev (declared kinds decl ++ e) fe (map fst bl ++ bh) l nilv s)
    (iprogn iev l nilv) (bindfp c) (map fst bs) vs (vsp c) m e fe sc s' c') as S.
  assert (simo m bl sc c' s'
     (binds (fun x => proclaimed x || inl x decl) (combine (map fst bs) vs)
        (fun e s => progn ev (declared kinds decl ++ e) fe (map fst bl ++ bh) l nilv s) e s')
     (match ibinds V W nilv kinds (map fst bs) (vsp c) (bindfp c) (bindfp c) c' with
      | Some c3 => iprogn iev l nilv c3 | None => Some IErr end)) as S'.
  { rewrite Hb in S. apply S; clear S; auto.
    - now apply isdyn_ok.
    - now rewrite map_length.
    - lia.
    - apply I'.
    - rewrite <- Hb. eapply fresh_start; [apply I'|now exists []].
    - eapply blkrel_lt; apply I'.
    - intros m' e' sc' s2 c2 B2 In2. rewrite declared_ok by assumption. cbn [app].
      eapply simm_simo; [exact B2|]. apply simw_simm, sim_simw.
      eapply progn_sim; eauto. split; [exact B2|]. eapply blk_inner; [apply I'|exact In2]. }
  clear S.
  assert (vsp c <= vsp c') as Lv by lia.
  pose proof (close_sim m e fe bl sc c' s' (bindfp c) (vsp c) (vsp c) _ _ (proj1 I') Lv Hs S') as C.
  destruct (ibinds V W nilv kinds (map fst bs) (vsp c) (bindfp c) (bindfp c) c'); exact C.
Qed.

Lemma simo_lift : forall m bl sc c s c1 s1 r ir,
  mid m c s s1 c1 -> maps m s (mem c) (vsp c) -> vsp c1 = vsp c ->
  simo m bl sc c1 s1 r ir -> simo m bl sc c s r ir.
Proof.
  intros m bl sc c s c1 s1 r ir D M L. apply agree_lift; try assumption; try lia; try apply D.
  intros s' c' []. destruct D. destruct o_new0 as (new & S & Fn & U). split; try congruence; try lia.
  - eapply similar_trans; [exact d_sim0|]. rewrite <- L. exact o_sim0.
  - exists new. rewrite <- L. auto.
Qed.

Lemma mid_inner : forall m c s s' c', mid m c s s' c' -> vsp c' = vsp c -> fletfp c' = fletfp c ->
  inner c s c' s'.
Proof. intros m c s s' c' [] Hv Hf. split; auto. lia. Qed.

Lemma slet_sim : forall isdyn bf fs bl bh fe k ik bs m e sc s c,
  (forall y, isdyn y = proclaimed y) -> NoDup (map fst bs) ->
  forallb (fun q => good (bnames bl) fs (snd q)) bs = true -> goodfe fs fe ->
  inv m e fe bl sc s c -> fresh m e bf (map fst bs) ->
  (forall m' e' sc' s' c', inv m' e' fe bl sc' s' c' -> simo m' bl sc' c' s' (k e' s') (ik c')) ->
  simo m bl sc c s (slet ev isdyn fe (map fst bl ++ bh) bs k e s)
    (iseq V W kinds iev bs (bindfp c) bf c ik).
Proof.
  intros isdyn bf fs bl bh fe k ik. induction bs as [|[x a] bs IH]; intros m e sc s c Hd N G F I Fr Hk.
  - cbn. now apply Hk.
  - cbn in N, G, Fr. apply andb_prop in G. destruct G as [G1 G2].
    inversion N as [|? ? N1 N2]; subst. cbn [slet iseq].
    eapply agree_bind; [eapply EV; eauto|].
    intros v s' c' (D & Hb & Hv & Hf).
    assert (inv m e fe bl sc s' c') as I' by (eapply inv_mid; eauto; lia).
    eapply simo_lift; [exact D|apply I|exact Hv|]. rewrite <- Hb.
    eapply (scoped_sim isdyn bl x v (slet ev isdyn fe (map fst bl ++ bh) bs k)
              (fun c1 env1 => iseq V W kinds iev bs env1 bf c1 ik)); eauto.
    + apply I'.
    + eapply blkrel_lt; apply I'.
    + intros m2 e2 sc2 s2 c2 B2 In2 Fr2.
      apply IH; auto. split; [exact B2|]. eapply blk_inner; [apply I'|exact In2].
Qed.

Lemma ibind_assoc : forall (r : option (iout V W)) f g,
  ibind (ibind r f) g = ibind r (fun v c => ibind (f v c) g).
Proof. intros [[v c|a v c|]|] f g; reflexivity. Qed.

Lemma iseq_fin : forall bs env bf c ik fin,
  iseq V W kinds iev bs env bf c (fun c2 => ibind (ik c2) fin) =
  ibind (iseq V W kinds iev bs env bf c ik) fin.
Proof.
  induction bs as [|[x a] bs IH]; intros env bf c ik fin; [reflexivity|].
  cbn [iseq]. rewrite ibind_assoc.
  destruct (iev a c) as [[v c1|? ? ?|]|]; try reflexivity. cbn [ibind].
  destruct (vbind V W kinds c1 x (Some v) env bf) as [[c2 env2]|]; [apply IH|reflexivity].
Qed.

Lemma letstar_sim : forall bs decl l m e fe fs bl bh sc s c,
  good (bnames bl) fs (LetStar bs decl l) = true -> goodfe fs fe -> inv m e fe bl sc s c ->
  simw m bl sc c s
    (slet ev (fun x => proclaimed x || inl x decl) fe (map fst bl ++ bh) bs
       (fun e s => progn ev (declared kinds decl ++ e) fe (map fst bl ++ bh) l nilv s) e s)
    (iseqlet V W nilv kinds iev bs decl l c).
Proof.
  intros bs decl l m e fe fs bl bh sc s c G F I. cbn [ScopeSpec.good] in G.
  repeat (apply andb_prop in G as [G ?]). apply nodupb_NoDup in G.
  unfold iseqlet. rewrite declare_ok by assumption. rewrite iseq_fin.
  eapply close_sim; [apply I|apply le_n|apply I|].
  eapply slet_sim; eauto.
  - now apply isdyn_ok.
  - eapply fresh_start; [apply I|now exists []].
  - intros m' e' sc' s' c' I'. rewrite declared_ok by assumption. cbn [app].
    eapply simm_simo; [apply I'|]. apply simw_simm, sim_simw. eapply progn_sim; eauto.
Qed.

(* ------------------------------------------------------------------ *)
(* Blocks *)

Lemma framed_fin : forall (c : ctx) name link k fin,
  framed c name link k fin =
  ibind (framed c name link k (fun c => c)) (fun v c' => Some (IVal v (fin c'))).
Proof.
  intros c name link k fin. unfold framed.
  destruct (k (makeblock c name link)) as [[v c'|a v c'|]|]; try reflexivity.
  destruct (Nat.eqb a (vsp c)); reflexivity.
Qed.

Lemma blkrel_ids : forall bl n id a i, Forall (fun i => i < id) (bids bl) ->
  In (n, i, a) bl -> i < id.
Proof.
  intros bl n id a i F H. rewrite Forall_forall in F. apply F.
  unfold bids. apply in_map_iff. now exists (n, i, a).
Qed.

Lemma block_inv : forall m e fe sc s c n link bl,
  base m e fe sc s c -> blkrel (mem c) bl link -> below link (vsp c) ->
  Forall (fun i => i < nb s) (bids bl) ->
  inv m e fe ((n, nb s, vsp c) :: bl) sc (mkS (sto s) (sdyn s) (S (nb s)) (swo s))
      (makeblock c (Some n) link).
Proof.
  intros m e fe sc s c n link bl B K L Fi.
  pose proof (push_mid _ _ _ _ _ _ (FBlock (blkfp c) link (Some n)) B) as D.
  destruct D. destruct B. cbn in *. split; split; cbn.
  - eapply maps_sto; [|eapply maps_le; [exact d_map0|lia]]. reflexivity.
  - eapply envrel_similar; [eapply maps_lt; exact d_map0|exact d_sim0|assumption].
  - eapply fenvrel_similar; [eapply maps_lt; exact d_map0|exact d_sim0|assumption|assumption].
  - eapply below_le; [eassumption|lia].
  - assumption.
  - eapply specrel_similar; eauto.
  - eapply below_le; [eassumption|lia].
  - assumption.
  - assumption.
  - econstructor; [apply poke_same|exact L|exact Fi|]. eapply blkrel_similar; eauto.
  - lia.
  - constructor; [lia|]. eapply Forall_impl; [|exact Fi]. cbn. intros; lia.
Qed.

Lemma blocked_sim : forall m e fe sc s c n link bl bh k ik,
  base m e fe sc s c -> blkrel (mem c) bl link -> below link (vsp c) ->
  Forall (fun i => i < nb s) (bids bl) ->
  (forall s1 c1, inv m e fe ((n, nb s, vsp c) :: bl) sc s1 c1 ->
     vsp c1 = S (vsp c) ->
     simm m ((n, nb s, vsp c) :: bl) sc c1 s1
          (k (map fst ((n, nb s, vsp c) :: bl) ++ bh) s1) (ik c1)) ->
  simm m bl sc c s (blocked n (map fst bl ++ bh) k s)
    (framed c (Some n) link ik (fun c => c)).
Proof.
  intros m e fe sc s c n link bl bh k ik B K L Fi H.
  pose proof (block_inv m e fe sc s c n link bl B K L Fi) as I1.
  pose proof (push_mid _ _ _ _ _ _ (FBlock (blkfp c) link (Some n)) B) as D1.
  specialize (H _ _ I1 eq_refl). cbn [map fst app] in H.
  unfold blocked, framed. revert H.
  set (s1 := mkS (sto s) (sdyn s) (S (nb s)) (swo s)).
  set (c1 := makeblock c (Some n) link). intros H.
  assert (forall mm', similar (mem c1) mm' (vsp c1) -> mm' (vsp c) = FBlock (blkfp c) link (Some n)) as Q.
  { intros mm' Sm. assert (mem c1 (vsp c) = FBlock (blkfp c) link (Some n)) as E by apply poke_same.
    rewrite <- E. apply shape_nobind; [apply Sm; cbn; lia|]. rewrite E. discriminate. }
  assert (forall mm', similar (mem c1) mm' (vsp c1) -> similar (mem c) mm' (vsp c)) as Q2.
  { intros mm' Sm. eapply similar_trans; [exact (d_sim _ _ _ _ _ D1)|]. eapply similar_le; [exact Sm|cbn; lia]. }
  destruct (k ((n, nb s) :: map fst bl ++ bh) s1) as [[v s'|id v s'|]|];
    destruct (ik c1) as [[v' c'|a v' c'|]|]; cbn in H; try tauto.
  - destruct H as [-> []]. cbn. split; [reflexivity|]. split; cbn; auto.
    + eapply maps_down; [apply B|exact d_map0].
    + unfold dynklink. now rewrite Q.
    + cbn in d_nb0. lia.
  - destruct H as [-> []]. destruct j_in0 as (n' & Hin).
    destruct Hin as [Hin|Hin].
    + injection Hin as -> <- <-. rewrite !Nat.eqb_refl. cbn. split; [reflexivity|].
      split; cbn; auto.
      * eapply maps_down; [apply B|exact j_map0].
      * rewrite j_sb0. eapply specrel_head; apply B.
      * unfold dynklink. now rewrite Q.
      * rewrite j_dyn0. apply undo_none. eapply specrel_lt; apply B.
      * cbn in j_nb0. lia.
    + pose proof (blkrel_ids _ _ _ _ _ Fi Hin) as Li.
      pose proof (blkrel_lt _ _ _ _ K L) as Lt. rewrite Forall_forall in Lt. specialize (Lt _ Hin). cbn in Lt.
      destruct (Nat.eqb_spec id (nb s)); [lia|]. destruct (Nat.eqb_spec a (vsp c)); [lia|].
      cbn. split; [reflexivity|]. split; auto.
      * now exists n'.
      * eapply maps_down; [apply B|exact j_map0].
      * cbn in j_nb0. lia.
Qed.

Lemma simm_fin : forall m bl sc c s bf r ir (fin : ctx -> ctx),
  simm m bl sc c s r ir ->
  (forall s' c', mid m c s s' c' -> mid m c s s' (fin c') /\ bindfp (fin c') = bf) ->
  bf = bindfp c ->
  simw m bl sc c s r (ibind ir (fun v c' => Some (IVal v (fin c')))).
Proof.
  intros m bl sc c s bf r ir fin H Hf ->.
  destruct r as [[v s'|id v s'|]|]; destruct ir as [[v' c'|a v' c'|]|]; cbn in *; try tauto.
  destruct H as [-> D]. split; [reflexivity|]. now apply Hf.
Qed.

Lemma block_sim : forall n l m e fe fs bl bh sc s c,
  forallb (good (n :: bnames bl) fs) l = true -> goodfe fs fe -> inv m e fe bl sc s c ->
  simw m bl sc c s (blocked n (map fst bl ++ bh) (fun b s => progn ev e fe b l nilv s) s)
    (iblock V W nilv iev n l c).
Proof.
  intros n l m e fe fs bl bh sc s c G F [B K]. unfold iblock. rewrite framed_fin.
  eapply simm_fin; [| |reflexivity].
  - eapply blocked_sim; [exact B|apply K|apply K|apply K|].
    intros s1 c1 I1 _. apply simw_simm, sim_simw. eapply progn_sim; eauto.
  - intros s' c' []. split; [|reflexivity]. split; auto.
Qed.

Lemma while_sim : forall k a l m e fe fs bl bh sc s c,
  good (0 :: bnames bl) fs a = true -> forallb (good (0 :: bnames bl) fs) l = true ->
  goodfe fs fe -> inv m e fe bl sc s c ->
  simw m bl sc c s (blocked 0 (map fst bl ++ bh) (fun b s => loop V W nilv isnil ev k e fe b a l s) s)
    (iwhile V W nilv isnil iev k a l c).
Proof.
  intros k a l m e fe fs bl bh sc s c G1 G2 F [B K]. unfold iwhile. rewrite framed_fin.
  eapply simm_fin; [| |reflexivity].
  - eapply blocked_sim; [exact B|apply K|apply K|apply K|].
    intros s1 c1 I1 _. apply simw_simm, sim_simw. eapply loop_sim; eauto.
  - intros s' c' []. split; [|reflexivity]. split; auto.
Qed.

Lemma find_block_ok : forall mm bl p k n bh, blkrel mm bl p -> below p k -> In n (bnames bl) ->
  exists id a, assoc n (map fst bl ++ bh) = Some id /\ find_block mm k p n = Some a /\ In (n, id, a) bl.
Proof.
  intros mm bl p k n bh H. revert k. induction H as [|n' id a bl dk lk E L F H IH]; intros k Hb Hn.
  - destruct Hn.
  - cbn in Hb, Hn. destruct k as [|k]; [lia|]. cbn. rewrite E.
    destruct (Nat.eqb_spec n' n) as [->|Hne].
    + exists id, a. auto.
    + destruct Hn as [Hn|Hn]; [congruence|].
      destruct (IH k) as (id' & a' & H1 & H2 & H3); [eapply below_le; [exact L|lia]|exact Hn|].
      exists id', a'. auto.
Qed.

Lemma return_sim : forall n a m e fe fs bl bh sc s c,
  good (bnames bl) fs (Return n a) = true -> goodfe fs fe -> inv m e fe bl sc s c ->
  simw m bl sc c s
    (match assoc n (map fst bl ++ bh) with
     | None => Some Err
     | Some id => bindo (ev e fe (map fst bl ++ bh) a s) (fun v s => Some (Exit id v s))
     end)
    (iretfrom V W kinds iev n a c).
Proof.
  intros n a m e fe fs bl bh sc s c G F I. cbn in G. apply andb_prop in G. destruct G as [G1 G2].
  apply inl_In in G1. unfold iretfrom.
  assert (below (blkfp c) (S (vsp c))) as Hb by (eapply below_le; [apply I|lia]).
  destruct (find_block_ok _ _ _ _ n bh (k_rel _ _ _ (proj2 I)) Hb G1) as (id & ad & -> & -> & Hin).
  eapply agree_bind; [eapply EV; eauto|].
  intros v s' c' (D & _ & _ & _). cbn. split; [reflexivity|]. unfold unwind.
  assert (specrel (mem c') sc (sbindfp c')) as S.
  { rewrite (d_sb _ _ _ _ _ D). eapply specrel_similar; [apply D|apply I|apply I]. }
  rewrite (unbindspecial_ok ad sc) by exact S.
  destruct D. split; cbn; auto.
  - now exists n.
  - now rewrite d_dyn0.
Qed.

(* ------------------------------------------------------------------ *)
(* Local functions *)

(* The frames of a group, whatever scope their functions have *)
Inductive anygroup mm (lo : nat) (bfp rest : ptr)
  : list (nat * (list nat * list exp)) -> ptr -> Prop :=
| ag_nil : anygroup mm lo bfp rest [] rest
| ag_cons : forall f ps body fns a ffp lexl dynl,
    mm a = FFlet f ps body bfp ffp lexl dynl -> local f = true -> below lexl a -> lo <= a ->
    anygroup mm lo bfp rest fns lexl ->
    anygroup mm lo bfp rest ((f, (ps, body)) :: fns) (Some a).

Lemma anygroup_same : forall mm mm' lo bfp rest fns p b,
  (forall a, a < b -> mm' a = mm a) -> below p b ->
  anygroup mm lo bfp rest fns p -> anygroup mm' lo bfp rest fns p.
Proof.
  intros mm mm' lo bfp rest fns p b S Hb H. induction H as [|f ps body fns a ffp lexl dynl E L Hl Lo H IH].
  - constructor.
  - cbn in Hb. econstructor; eauto; [rewrite S by lia; exact E|].
    apply IH. eapply below_le; [exact Hl|lia].
Qed.

Lemma patch_ok : forall lo bfp rest top fns mm p,
  anygroup mm lo bfp rest fns p ->
  grouprel (patch (length fns) p top mm) bfp top rest fns p /\
  (forall a, a < lo \/ below p a -> patch (length fns) p top mm a = mm a).
Proof.
  intros lo bfp rest top. induction fns as [|[f [ps body]] fns IH]; intros mm p H.
  - inversion H; subst. cbn. split; [constructor|reflexivity].
  - inversion H as [|? ? ? ? a ffp lexl dynl E L Hl Lo H']; subst. cbn [length patch]. rewrite E.
    set (mm1 := poke mm a (FFlet f ps body bfp top lexl dynl)).
    assert (anygroup mm1 lo bfp rest fns lexl) as H1.
    { eapply anygroup_same; [|exact Hl|exact H']. intros b Hb. unfold mm1. rewrite poke_other by lia. reflexivity. }
    destruct (IH mm1 lexl H1) as [G1 G2]. split.
    + econstructor; [|exact L|exact Hl|exact G1].
      rewrite G2 by (right; exact Hl). unfold mm1. apply poke_same.
    + intros b Hb. rewrite G2.
      * unfold mm1. apply poke_other. cbn in Hb. lia.
      * destruct Hb as [Hb|Hb]; [now left|]. right. cbn in Hb. eapply below_le; [exact Hl|lia].
Qed.

Record flets m c (s : state) c1 (n : nat) : Prop := {
  t_mid : mid m c s s c1;
  t_vsp : vsp c1 = vsp c + n;
  t_bind : bindfp c1 = bindfp c;
  t_flt : below (fletfp c1) (vsp c1)
}.

Lemma flet_frames : forall (scp : ctx -> ptr) m e fe sc s c fns,
  base m e fe sc s c -> forallb local (map fst fns) = true ->
  let c1 := fold_left (fun c fn => makeflet c (fst fn) (snd fn) (scp c) (fletfp c)) fns c in
  flets m c s c1 (length fns) /\
  anygroup (mem c1) (vsp c) (bindfp c) (fletfp c) (rev fns) (fletfp c1) /\
  (forall ffp, (forall c, scp c = ffp) ->
     grouprel (mem c1) (bindfp c) ffp (fletfp c) (rev fns) (fletfp c1)).
Proof.
  intros scp m e fe sc s c fns B. induction fns as [|[f [ps body]] fns IH] using rev_ind; intros L.
  - cbn. split; [|split; [constructor|intros; constructor]].
    split; auto; [eapply mid_refl; eauto|apply B].
  - rewrite map_app, forallb_app in L. apply andb_prop in L. destruct L as [L1 L2].
    cbn in L2. rewrite andb_true_r in L2. specialize (IH L1).
    cbn zeta in *. rewrite fold_left_app. cbn [fold_left].
    set (c1 := fold_left (fun c fn => makeflet c (fst fn) (snd fn) (scp c) (fletfp c)) fns c) in *.
    destruct IH as ([D Hv Hb Hf] & A & G).
    assert (forall a, a < vsp c1 -> mem (makeflet c1 f (ps, body) (scp c1) (fletfp c1)) a = mem c1 a) as S
      by (intros a Ha; cbn; rewrite poke_other by lia; reflexivity).
    assert (similar (mem c1) (mem (makeflet c1 f (ps, body) (scp c1) (fletfp c1))) (vsp c1)) as Sm
      by (intros a Ha; left; symmetry; now apply S).
    split; [|split].
    + split; cbn.
      * destruct D. split; cbn; auto.
        -- eapply similar_trans; [exact d_sim0|]. eapply similar_le; [exact Sm|lia].
        -- split; [|apply d_map0]. intros a l H.
           destruct (mp_val _ _ _ _ d_map0 _ _ H) as (La & d & lx & x & v & E & N).
           split; [exact La|]. exists d, lx, x, v. rewrite poke_other by lia. auto.
      * rewrite app_length. cbn. lia.
      * exact Hb.
      * lia.
    + rewrite rev_app_distr. cbn [rev app].
      eapply (ag_cons _ _ _ _ f ps body _ (vsp c1) (scp c1) (fletfp c1) (fletfp c1)).
      * cbn [makeflet set_fletfp push set_vsp set_mem mem fst snd]. rewrite poke_same, Hb. reflexivity.
      * exact L2.
      * exact Hf.
      * lia.
      * eapply anygroup_same; [exact S|exact Hf|exact A].
    + intros ffp Hs. rewrite rev_app_distr. cbn [rev app].
      eapply (gr_cons _ _ _ _ f ps body _ (vsp c1) (fletfp c1) (fletfp c1)).
      * cbn [makeflet set_fletfp push set_vsp set_mem mem fst snd]. rewrite poke_same, Hb, Hs. reflexivity.
      * exact L2.
      * exact Hf.
      * eapply grouprel_similar; [exact Sm|exact Hf|]. now apply G.
Qed.

Lemma flet_inv : forall m e fe bl sc s c c1 n (rec : bool) fns b,
  inv m e fe bl sc s c -> flets m c s c1 n ->
  grouprel (mem c1) (bindfp c) (if rec then fletfp c1 else fletfp c) (fletfp c) (rev fns) (fletfp c1) ->
  inv m e (FGroup rec fns e b fe) bl sc s c1.
Proof.
  intros m e fe bl sc s c c1 n rec fns b [B K] [D Hv Hb Hf] G. destruct B, K, D.
  assert (vsp c <= vsp c1) as Lv by lia.
  assert (envrel (mem c1) m e (bindfp c)) as He.
  { eapply envrel_similar; [eapply maps_lt; exact d_map0|exact d_sim0|assumption]. }
  split; split.
  - eapply maps_le; eauto.
  - now rewrite Hb.
  - econstructor; [exact G|exact He|].
    eapply fenvrel_similar; [eapply maps_lt; exact d_map0|exact d_sim0|assumption|assumption].
  - exact Hf.
  - split; [now exists []|assumption].
  - rewrite d_sb0. eapply specrel_similar; eauto.
  - rewrite d_sb0. eapply below_le; eauto.
  - assumption.
  - assumption.
  - rewrite d_blk0. eapply blkrel_similar; eauto.
  - rewrite d_blk0. eapply below_le; eauto.
  - assumption.
Qed.

Lemma goodfe_group : forall (rec : bool) fs fe fns e b,
  nodupb (map fst fns) = true ->
  forallb (fun d => nodupb (fst (snd d)) &&
    forallb (good [fst d] (if rec then map fst fns ++ fs else fs)) (snd (snd d))) fns = true ->
  goodfe fs fe -> goodfe (map fst fns ++ fs) (FGroup rec fns e b fe).
Proof.
  intros rec fs fe fns e b N G F. constructor; [now apply nodupb_NoDup| |exact F].
  intros f ps body H. rewrite forallb_forall in G. specialize (G _ H). cbn in G.
  apply andb_prop in G. destruct G as [G1 G2]. split; [now apply nodupb_NoDup|exact G2].
Qed.

Lemma group_sim : forall (rec : bool) fns l m e fe fs bl bh sc s c c1 n,
  nodupb (map fst fns) = true ->
  forallb (fun d => nodupb (fst (snd d)) &&
    forallb (good [fst d] (if rec then map fst fns ++ fs else fs)) (snd (snd d))) fns = true ->
  forallb (good (bnames bl) (map fst fns ++ fs)) l = true ->
  goodfe fs fe -> inv m e fe bl sc s c -> flets m c s c1 n ->
  grouprel (mem c1) (bindfp c) (if rec then fletfp c1 else fletfp c) (fletfp c) (rev fns) (fletfp c1) ->
  simw m bl sc c s
    (progn ev e (FGroup rec fns e (map fst bl ++ bh) fe) (map fst bl ++ bh) l nilv s)
    (ibind (iprogn iev l nilv c1) (fun v c3 => Some (IVal v (set_fletfp c3 (fletfp c))))).
Proof.
  intros rec fns l m e fe fs bl bh sc s c c1 n N G Gl F I T Gr.
  pose proof (flet_inv m e fe bl sc s c c1 n rec fns (map fst bl ++ bh) I T Gr) as I1.
  pose proof (goodfe_group rec fs fe fns e (map fst bl ++ bh) N G F) as F1.
  pose proof (progn_sim l nilv m e _ _ bl bh sc s c1 Gl F1 I1) as P.
  destruct T as [D Hv Hb Hf].
  apply sim_simw in P. apply (simw_lift m bl sc c s c1 s) in P;
    [|exact D|apply I|exact Hb|lia].
  destruct (progn ev e _ _ l nilv s) as [[v s'|id v s'|]|];
    destruct (iprogn iev l nilv c1) as [[v' c'|a v' c'|]|]; cbn in *; try tauto.
  destruct P as [-> [D' Hb']]. split; [reflexivity|]. split; [|exact Hb'].
  destruct D'. split; auto.
Qed.

Lemma flet_sim : forall fns l m e fe fs bl bh sc s c,
  good (bnames bl) fs (Flet fns l) = true -> goodfe fs fe -> inv m e fe bl sc s c ->
  simw m bl sc c s
    (progn ev e (FGroup false fns e (map fst bl ++ bh) fe) (map fst bl ++ bh) l nilv s)
    (iflet V W nilv iev fns l c).
Proof.
  intros fns l m e fe fs bl bh sc s c G F I. cbn [ScopeSpec.good] in G.
  repeat (apply andb_prop in G as [G ?]).
  destruct (flet_frames (fun _ => fletfp c) m e fe sc s c fns (proj1 I) ltac:(assumption)) as (T & _ & Gr).
  unfold iflet. eapply (group_sim false); eauto.
Qed.

Lemma labels_sim : forall fns l m e fe fs bl bh sc s c,
  good (bnames bl) fs (Labels fns l) = true -> goodfe fs fe -> inv m e fe bl sc s c ->
  simw m bl sc c s
    (progn ev e (FGroup true fns e (map fst bl ++ bh) fe) (map fst bl ++ bh) l nilv s)
    (ilabels V W nilv iev fns l c).
Proof.
  intros fns l m e fe fs bl bh sc s c G F I. cbn [ScopeSpec.good] in G.
  repeat (apply andb_prop in G as [G ?]).
  destruct (flet_frames fletfp m e fe sc s c fns (proj1 I) ltac:(assumption)) as (T & A & _).
  unfold ilabels.
  set (c1 := fold_left (fun c fn => makeflet c (fst fn) (snd fn) (fletfp c) (fletfp c)) fns c) in *.
  destruct (patch_ok _ _ _ (fletfp c1) _ _ _ A) as [Gr Sm]. rewrite rev_length in *.
  eapply (group_sim true) with (n := length fns); eauto.
  destruct T as [D Hv Hb Hf]. split; auto. destruct D. split; cbn; auto.
  - eapply similar_trans; [exact d_sim0|]. intros a Ha. left. symmetry. apply Sm. now left.
  - split; [|apply d_map0]. intros a k Hk.
    destruct (mp_val _ _ _ _ d_map0 _ _ Hk) as (La & d & lx & x & v & E & N).
    split; [exact La|]. exists d, lx, x, v. rewrite Sm by now left. auto.
Qed.

(* ------------------------------------------------------------------ *)
(* Calls *)

Lemma simw_nobl : forall m bl sc c s r ir, simw m [] sc c s r ir -> simw m bl sc c s r ir.
Proof.
  intros m bl sc c s r ir H.
  destruct r as [[v s'|id v s'|]|]; destruct ir as [[v' c'|a v' c'|]|]; cbn in *; try tauto.
  destruct H as [_ []]. destruct j_in0 as (? & []).
Qed.

Lemma apply_sim : forall m e fe fs bl sc s c f ps body vs a env fenv b',
  base m e fe sc s (set_fletfp (set_bindfp c env) fenv) ->
  fresh m e (bindfp c) ps -> NoDup ps -> forallb (good [f] fs) body = true -> goodfe fs fe ->
  pushed (mem c) a vs -> a + length vs <= vsp c ->
  simw m bl sc c s (applyf V W nilv kinds ev (Some f) ps body e fe b' vs s)
    (funlambda V W nilv kinds iev (Some f) ps body a (length vs) env (set_fletfp c fenv)).
Proof.
  intros m e fe fs bl sc s c f ps body vs a env fenv b' B Fr N G F Pu La.
  apply simw_nobl. unfold applyf, funlambda.
  destruct (Nat.eqb_spec (length ps) (length vs)) as [El|El].
  2:{ rewrite params_short by congruence. exact I. }
  set (c0 := set_fletfp (set_bindfp c env) fenv) in *.
  change (set_bindfp (set_fletfp c fenv) env) with c0.
  pose proof (params_sim [] (fun e s => blocked f b' (fun b s => progn ev e fe b body nilv s) s)
    (fun c1 => framed c1 (Some f) None (iprogn iev body nilv) (fun c => c))
    (bindfp c) ps vs a m e fe sc s c0) as P.
  assert (simo m [] sc c0 s
    (binds proclaimed (combine ps vs) (fun e s => blocked f b' (fun b s => progn ev e fe b body nilv s) s) e s)
    (match iparams V W nilv kinds ps a (length vs) env (bindfp c) c0 with
     | Some c3 => framed c3 (Some f) None (iprogn iev body nilv) (fun c => c)
     | None => Some IErr end)) as P'.
  { apply P; auto.
    intros m' e' sc' s' c' B' In'. eapply simm_simo; [exact B'|].
    apply (blocked_sim m' e' fe sc' s' c' f None [] b').
    - exact B'.
    - constructor.
    - exact I.
    - constructor.
    - intros s1 c1 I1 _. apply simw_simm, sim_simw. eapply progn_sim; eauto. }
  clear P.
  pose proof (fun L H => close_sim m e fe [] sc c0 s (bindfp c) (vsp c)
    (match sbindfp c with None => 0 | Some a => S a end) _ _ B L H P') as C.
  assert (match sbindfp c with None => 0 | Some a => S a end <= vsp c0) as L1.
  { destruct B. cbn in b_slt0 |- *. destruct (sbindfp c); cbn in *; lia. }
  assert (below (sbindfp c0) (match sbindfp c with None => 0 | Some a => S a end)) as L2.
  { cbn. destruct (sbindfp c); cbn; [lia|exact I]. }
  specialize (C L1 L2).
  assert (forall r ir, agree m [] sc c0 s (fun s' c' => mid m c0 s s' c' /\ bindfp c' = bindfp c) r ir ->
    simw m [] sc c s r ir) as Q.
  { intros r ir H. destruct r as [[v s'|id v s'|]|]; destruct ir as [[v' c'|ad v' c'|]|]; cbn in *; try tauto.
    - destruct H as [-> [[] Hb]]. split; [reflexivity|]. split; [|exact Hb]. split; auto.
    - destruct H as [_ []]. destruct j_in0 as (? & []). }
  apply Q. clear Q.
  change (bindfp (set_fletfp c fenv)) with (bindfp c).
  change (sbindfp (set_fletfp c fenv)) with (sbindfp c).
  change (vsp (set_fletfp c fenv)) with (vsp c).
  destruct (iparams V W nilv kinds ps a (length vs) env (bindfp c) c0) as [c3|].
  - rewrite framed_fin. exact C.
  - exact C.
Qed.

Hypothesis GD : good_defs kinds local defs.

Lemma set_same : forall c, set_fletfp c (fletfp c) = c.
Proof. intros []. reflexivity. Qed.

Lemma fun_sim : forall f args m e fe fs bl bh sc s c,
  good (bnames bl) fs (Fun f args) = true -> goodfe fs fe -> inv m e fe bl sc s c ->
  sim m bl sc c s
    (eval V W nilv isnil kinds defs prim (S n0) e fe (map fst bl ++ bh) (Fun f args) s)
    (ieval V W nilv isnil kinds defs prim (S n0) (Fun f args) c).
Proof.
  intros f args m e fe fs bl bh sc s c G F I.
  cbn [ScopeSpec.good] in G. apply andb_prop in G. destruct G as [G1 G2].
  cbn [eval ieval].
  assert (below (fletfp c) (S (vsp c))) as Hfl by (eapply below_le; [apply I|lia]).
  pose proof (push_inv _ _ _ _ _ _ _ FCall I) as Ip.
  destruct (flookup f fe) as [[[[[ps body] e'] b'] fe']|] eqn:Lk.
  - destruct (find_fun_ok _ _ _ _ _ _ _ _ _ _ _ _ _ (b_fenv _ _ _ _ _ _ (proj1 I)) F Hfl
               (b_suf _ _ _ _ _ _ (proj1 I)) Lk)
      as (bfp & ffp & fs' & -> & He & Hf & Hb & Hs & Hpre & F' & N & Gb).
    eapply ufuncall_sim; [exact I|].
    eapply evals_sim; eauto.
    intros vs s' c' Hl I' Pu Hv Hbf Hff D. cbn [Nat.add]. rewrite <- Hl.
    assert (similar (mem c) (mem c') (vsp c)) as Sm.
    { eapply similar_trans; [apply (d_sim _ _ _ _ _ (push_mid _ _ _ _ _ _ FCall (proj1 I)))|].
      eapply similar_le; [apply D|cbn; lia]. }
    assert (forall a l, In (a, l) m -> a < vsp c) as Lm by (eapply maps_lt; apply I).
    eapply apply_sim; eauto.
    + destruct I' as [[] _]. split; cbn; auto.
      * eapply envrel_similar; eauto.
      * eapply fenvrel_similar; [exact Lm|exact Sm| |exact Hf].
        apply Hb, I.
      * eapply below_le; [apply Hb, I|]. cbn in Hv. lia.
    + eapply fresh_start; [apply I'|exact Hpre].
    + cbn in Hv |- *. lia.
  - pose proof (flookup_none _ _ _ F Lk) as Nf.
    assert (local f = false) as Lf.
    { destruct (local f); [|reflexivity]. cbn in G1. apply inl_In in G1. contradiction. }
    rewrite (find_fun_hid _ _ _ _ (fenvrel_hid _ _ _ _ (b_fenv _ _ _ _ _ _ (proj1 I))) Lf).
    destruct (defs f) as [[ps body|p]|] eqn:Df; [| |exact Logic.I].
    + destruct (GD _ _ Df) as [_ Gb]. cbn in Gb. apply andb_prop in Gb. destruct Gb as [Np Gb].
      apply nodupb_NoDup in Np.
      eapply ufuncall_sim; [exact I|].
      eapply evals_sim; eauto.
      intros vs s' c' Hl I' Pu Hv Hbf Hff D. cbn [Nat.add]. rewrite <- Hl.
      rewrite <- (set_same c') at 2.
      eapply apply_sim; eauto.
      * destruct I' as [[] _]. split; cbn; auto.
        -- constructor.
        -- constructor. eapply fenvrel_hid; eauto.
      * intros y l a [].
      * constructor.
      * cbn in Hv |- *. lia.
    + eapply ufuncall_sim; [exact I|].
      eapply evals_sim; eauto.
      intros vs s' c' Hl I' Pu Hv Hbf Hff D. cbn [Nat.add]. rewrite <- Hl.
      rewrite pushed_vals by exact Pu.
      rewrite (b_dyn _ _ _ _ _ _ (proj1 I')), (b_wo _ _ _ _ _ _ (proj1 I')).
      destruct (prim p vs (sdyn s') (swo s')) as [[[v d] w]|]; [|exact Logic.I].
      cbn. split; [reflexivity|]. split; [|reflexivity].
      destruct I' as [[] _]. split; cbn; auto using similar_refl.
      eapply maps_sto; [|exact b_map0]. reflexivity.
Qed.
End Step.

Hypothesis GD : good_defs kinds local defs.

Lemma all_agree : forall n, agrees (eval V W nilv isnil kinds defs prim n)
                                   (ieval V W nilv isnil kinds defs prim n).
Proof.
  induction n as [|n IH]; intros ex m e fe fs bl bh sc s c G F I; [exact Logic.I|].
  pose proof (push_inv _ _ _ _ _ _ _ FCall I) as Ip.
  destruct ex.
  - cbn [eval ieval]. eapply sim_val; eauto.
  - cbn [eval ieval]. rewrite (getval_ok _ _ _ _ _ _ x (proj1 I)).
    destruct (read V W kinds e x s); [eapply sim_val; eauto|exact Logic.I].
  - cbn [eval ieval]. eapply ufuncall_sim; [exact I|].
    eapply agree_bind; [eapply IH; eauto|].
    intros v s' c' (D & Hb & Hv & Hf). cbn [agree]. split; [reflexivity|].
    assert (inv m e fe bl sc s' c') as I' by (eapply inv_mid; eauto; lia).
    destruct (setval_ok _ _ _ _ _ _ x v (proj1 I')) as (D2 & Hb2 & Hv2 & Hf2).
    split; [|congruence].
    eapply mid_trans; [|exact D|exact D2|].
    + lia.
    + rewrite <- Hv. apply D2.
  - cbn [eval ieval]. eapply ufuncall_sim; [exact I|]. apply sim_simw. eapply progn_sim; eauto.
  - cbn [ScopeSpec.good] in G. apply andb_prop in G as [G G3]. apply andb_prop in G as [G1 G2].
    cbn [eval ieval]. eapply ufuncall_sim; [exact I|]. apply sim_simw.
    eapply sim_bind; [exact Ip|eapply IH; eauto|].
    intros v s' c' I' _ _ _. destruct (isnil v); eapply IH; eauto.
  - cbn [ScopeSpec.good] in G. apply andb_prop in G as [G1 G2].
    cbn [eval ieval]. eapply ufuncall_sim; [exact I|]. eapply while_sim; eauto.
  - cbn [eval ieval]. eapply ufuncall_sim; [exact I|]. eapply let_sim; eauto.
  - cbn [eval ieval]. eapply ufuncall_sim; [exact I|]. eapply letstar_sim; eauto.
  - cbn [eval ieval]. eapply ufuncall_sim; [exact I|]. eapply block_sim; eauto.
  - cbn [eval ieval]. eapply ufuncall_sim; [exact I|]. eapply return_sim; eauto.
  - cbn [eval ieval]. eapply ufuncall_sim; [exact I|]. eapply flet_sim; eauto.
  - cbn [eval ieval]. eapply ufuncall_sim; [exact I|]. eapply labels_sim; eauto.
  - eapply fun_sim; eauto.
  - discriminate.
Qed.

(* At top level *)
Lemma top_inv : forall mm v d sl w,
  inv [] [] FEnd [] [] (mkS [] d 0 w) (mkC mm v None None None None d sl w).
Proof.
  intros. split; split; cbn; try exact I; try reflexivity; try constructor.
  - intros a l [].
  - intros a l a' l' [].
  - constructor.
Qed.
End Proofs.
