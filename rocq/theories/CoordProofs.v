(** Proofs about coordinate frames: algebra, and the tree of frames with its cached world coordinates. *)
From Coq Require Import List Arith Bool Lia Ring.
From Verif Require Import CoordModel CoordSpec.
Import ListNotations.

Section Alg.
Variables (F : Type) (zero one : F) (add mul sub : F -> F -> F) (neg : F -> F).
Hypothesis rth : ring_theory zero one add mul sub neg (@eq F).
Add Ring Fr : rth.
Notation tc := (tc F add mul). Notation inv := (inv F add mul neg). Notation mm := (mm F add mul). Notation mv := (mv F add mul). Notation mt := (mt F).
Notation va := (va F add). Notation vn := (vn F neg). Notation m1 := (m1 F zero one). Notation v0 := (v0 F zero). Notation U := (unit_coords F zero one).
Notation orth := (orth zero one add mul).
Ltac ent := unfold unit_coords, CoordModel.m1, CoordModel.v0; repeat match goal with m : mtx F |- _ => destruct m | v : vec F |- _ => destruct v | c : coords F |- _ => destruct c end;
  cbn [CoordModel.mm CoordModel.mv CoordModel.mt CoordModel.va CoordModel.vn of_cols col1 col2 col3 CoordModel.m1 CoordModel.v0 CoordModel.tc CoordModel.inv rot pos
       unit_coords transform_vector inverse_transform_vector];
  f_equal; try ring.
Lemma mm_assoc a b c : mm a (mm b c) = mm (mm a b) c. Proof. ent. Qed.
Lemma mm_1l a : mm m1 a = a. Proof. ent. Qed.
Lemma mm_1r a : mm a m1 = a. Proof. ent. Qed.
Lemma mt_mm a b : mt (mm a b) = mm (mt b) (mt a). Proof. ent. Qed.
Lemma mt_mt a : mt (mt a) = a. Proof. ent. Qed.
Lemma mv_mm a b v : mv (mm a b) v = mv a (mv b v). Proof. ent. Qed.
Lemma mv_1 v : mv m1 v = v. Proof. ent. Qed.
Lemma mv_va a u v : mv a (va u v) = va (mv a u) (mv a v). Proof. ent. Qed.
Lemma mv_vn a v : mv a (vn v) = vn (mv a v). Proof. ent. Qed.
Lemma mv_0 a : mv a v0 = v0. Proof. ent. Qed.
Lemma va_assoc u v w : va u (va v w) = va (va u v) w. Proof. ent. Qed.
Lemma va_comm u v : va u v = va v u. Proof. ent. Qed.
Lemma va_0l v : va v0 v = v. Proof. ent. Qed.
Lemma va_0r v : va v v0 = v. Proof. ent. Qed.
Lemma va_vn v : va v (vn v) = v0. Proof. ent. Qed.
Lemma vn_va v : va (vn v) v = v0. Proof. ent. Qed.
Lemma tc_assoc a b c : tc a (tc b c) = tc (tc a b) c.
Proof. unfold CoordModel.tc. cbn [rot pos]. rewrite mm_assoc, mv_va, va_assoc, mv_mm. reflexivity. Qed.
Lemma tc_1l a : tc U a = a.
Proof. unfold CoordModel.tc. destruct a as [r p]. cbn [rot pos unit_coords]. rewrite mm_1l, mv_1, va_0l. reflexivity. Qed.
Lemma tc_1r a : tc a U = a.
Proof. unfold CoordModel.tc. destruct a as [r p]. cbn [rot pos unit_coords]. rewrite mm_1r, mv_0, va_0r. reflexivity. Qed.
Lemma inv_l a : orth (rot F a) -> tc (inv a) a = U.
Proof. intros [H _]. unfold CoordModel.tc, CoordModel.inv. cbn [rot pos]. rewrite H, vn_va. reflexivity. Qed.
Lemma inv_r a : orth (rot F a) -> tc a (inv a) = U.
Proof. intros [_ H]. unfold CoordModel.tc, CoordModel.inv. cbn [rot pos]. rewrite H, mv_vn, <- mv_mm, H, mv_1, va_vn. reflexivity. Qed.
Lemma orth_1 : orth m1. Proof. split; ent. Qed.
Lemma orth_mm a b : orth a -> orth b -> orth (mm a b).
Proof.
  intros [A1 A2] [B1 B2]. split; rewrite mt_mm.
  - rewrite <- mm_assoc, (mm_assoc (mt a)), A1, mm_1l. exact B1.
  - rewrite <- mm_assoc, (mm_assoc b), B2, mm_1l. exact A2.
Qed.
Lemma orth_mt a : orth a -> orth (mt a).
Proof. intros [A1 A2]. split; rewrite mt_mt; assumption. Qed.
Lemma orth_tc a b : orth (rot F a) -> orth (rot F b) -> orth (rot F (tc a b)).
Proof. intros. apply orth_mm; assumption. Qed.
Lemma orth_inv a : orth (rot F a) -> orth (rot F (inv a)).
Proof. intros. apply orth_mt; assumption. Qed.
Lemma transform_tc a b v : transform_vector F add mul (tc a b) v = transform_vector F add mul a (transform_vector F add mul b v).
Proof. unfold transform_vector, CoordModel.tc. cbn [rot pos]. rewrite mv_va, mv_mm, (va_comm (pos F a)), va_assoc. reflexivity. Qed.
Lemma transform_inv a v : orth (rot F a) -> transform_vector F add mul a (inverse_transform_vector F add mul neg a v) = v /\
  inverse_transform_vector F add mul neg a (transform_vector F add mul a v) = v.
Proof.
  intros [A1 A2]. unfold transform_vector, inverse_transform_vector. split.
  - rewrite mv_va, mv_vn, <- !mv_mm, A2, !mv_1, <- va_assoc, vn_va, va_0r. reflexivity.
  - rewrite mv_va, <- mv_mm, A1, mv_1, <- va_assoc, va_vn, va_0r. reflexivity.
Qed.
End Alg.

Section Tree.
Set Default Proof Using "Type".
Variables (F : Type) (zero one : F) (add mul : F -> F -> F) (neg : F -> F) (bad : coords F -> coords F).
Ltac purge := try clear neg; try clear bad; try clear zero; try clear one; try clear add; try clear mul.
Notation st := (st F). Notation tc := (tc F add mul).
Notation pose := (pose add mul). Notation worldcoords := (worldcoords F add mul bad). Notation mark := (mark F). Notation newcoords := (newcoords F).
Notation nodes := (nodes F). Notation mem := (mem F). Notation next := (next F).
Implicit Types s si : st.
Definition kids (s : st) n := match nodes s n with Some d => desc d | None => [] end.
Inductive depth (s : st) : nat -> nat -> Prop :=
| depth_0 : forall n, live s n -> par s n = None -> depth s n 0
| depth_S : forall n p k, live s n -> par s n = Some p -> depth s p k -> depth s n (S k).
Definition bounded (s : st) (H : nat) : Prop := forall n, live s n -> exists k, k < H /\ depth s n k.
Definition links (s : st) (p : nat) : Prop := forall c, In c (kids s p) <-> par s c = Some p.
Record sep (s : st) : Prop := {
  sp_lw : forall n m, live s n -> live s m -> addr s n <> cache s m;
  sp_l : forall n m, live s n -> live s m -> n <> m -> addr s n <> addr s m;
  sp_w : forall n m, live s n -> live s m -> n <> m -> cache s n <> cache s m;
  sp_b : forall n, live s n -> 0 < addr s n < next s /\ 0 < cache s n < next s;
  sp_n : 0 < next s;
  sp_0 : mem s 0 = unit_coords F zero one }.
Definition mono (s : st) : Prop := forall n p, par s n = Some p -> dirty s p = true -> dirty s n = true.
Definition coh1 (s : st) (n : nat) : Prop :=
  mem s (cache s n) = match par s n with None => local s n | Some p => tc (mem s (cache s p)) (local s n) end.
Definition coh (E : nat -> Prop) (s : st) : Prop := forall n, live s n -> dirty s n = false -> ~ E n -> coh1 s n.
Record InvE (E : nat -> Prop) (s : st) : Prop := {
  i_b : exists H, bounded s H;
  i_l : forall p, links s p;
  i_s : sep s;
  i_m : mono s;
  i_c : coh E s }.
Definition Inv := InvE (fun _ => False).
(** the same objects *)
Definition shape (s s' : st) : Prop :=
  forall m, (live s' m <-> live s m) /\ par s' m = par s m /\ addr s' m = addr s m /\ cache s' m = cache s m /\ kids s' m = kids s m.
Lemma shape_refl s : shape s s. Proof. purge. intros m. tauto. Qed.
Lemma shape_trans (a b c : st) : shape a b -> shape b c -> shape a c.
Proof. purge. intros H1 H2 m. destruct (H1 m) as (? & ? & ? & ? & ?), (H2 m) as (? & ? & ? & ? & ?). repeat split; try congruence; tauto. Qed.
Lemma shape_depth s s' n k : shape s s' -> depth s n k -> depth s' n k.
Proof. purge.
  intros H. induction 1 as [n L P|n p k L P _ IH].
  - constructor; [apply H; exact L|]. destruct (H n) as (_ & -> & _). exact P.
  - apply depth_S with p; [apply H; exact L| |exact IH]. destruct (H n) as (_ & -> & _). exact P.
Qed.
Lemma shape_sym s s' : shape s s' -> shape s' s.
Proof. purge. intros H m. destruct (H m) as (? & ? & ? & ? & ?). repeat split; try congruence; tauto. Qed.
Lemma shape_above s s' n m : shape s s' -> above s n m -> above s' n m.
Proof. purge. intros H. induction 1 as [|m p P _ IH]; [constructor|]. apply above_step with p; [|exact IH]. destruct (H m) as (_ & -> & _). exact P. Qed.
Lemma depth_live s n k : depth s n k -> live s n. Proof. purge. destruct 1; assumption. Qed.
Lemma depth_fun s n k : depth s n k -> forall j, depth s n j -> j = k.
Proof. purge.
  induction 1 as [n L P|n p k L P _ IH]; intros j Hj; inversion Hj; subst; try congruence.
  f_equal. apply IH. congruence.
Qed.
Lemma depth_par s n p k : depth s n k -> par s n = Some p -> exists j, k = S j /\ depth s p j.
Proof. purge. intros H P. destruct H; [congruence|]. exists k. split; [reflexivity|]. congruence. Qed.
Lemma above_depth s n m : above s n m -> forall j, depth s m j -> exists k, depth s n k /\ k <= j /\ (k = j -> n = m).
Proof. purge.
  induction 1 as [|m p P _ IH]; intros j Hj; [exists j; auto|].
  destruct (depth_par _ _ _ _ Hj P) as (i & -> & Hi). destruct (IH i Hi) as (k & Hk & Hle & He). exists k. split; [exact Hk|]. split; [lia|]. lia.
Qed.
Lemma par_live s n p : par s n = Some p -> live s n.
Proof. purge. unfold par, live. destruct (nodes s n); congruence. Qed.
Lemma above_split s n m : above s n m -> n = m \/ exists c, par s c = Some n /\ above s c m.
Proof. purge.
  induction 1 as [|m p P Hp IH]; [auto|]. right. destruct IH as [->|(c & Hc & Hcp)]; [exists m; split; [exact P|constructor]|].
  exists c. split; [exact Hc|]. apply above_step with p; assumption.
Qed.
Lemma above_trans s a b c : above s a b -> above s b c -> above s a c.
Proof. purge. intros Hab. induction 1 as [|m p P _ IH]; [exact Hab|]. apply above_step with p; assumption. Qed.
Lemma above_child s n c m : par s c = Some n -> above s c m -> above s n m.
Proof. purge. intros P. apply above_trans. apply above_step with n; [exact P|constructor]. Qed.

(** what the accessors see of a node that is set *)
Lemma live_setn s n d m : live (setn F s n d) m <-> m = n \/ live s m.
Proof. purge. unfold live, setn, upd. cbn [CoordModel.nodes]. destruct (Nat.eqb_spec m n); split; intros; try tauto; try congruence. Qed.
Lemma par_setn s n d m : par (setn F s n d) m = if m =? n then parent d else par s m.
Proof. purge. unfold par, setn, upd. cbn [CoordModel.nodes]. destruct (m =? n); reflexivity. Qed.
Lemma addr_setn s n d m : addr (setn F s n d) m = if m =? n then loc d else addr s m.
Proof. purge. unfold addr, setn, upd. cbn [CoordModel.nodes]. destruct (m =? n); reflexivity. Qed.
Lemma wca_setn s n d m : cache (setn F s n d) m = if m =? n then wc d else cache s m.
Proof. purge. unfold cache, setn, upd. cbn [CoordModel.nodes]. destruct (m =? n); reflexivity. Qed.
Lemma kids_setn s n d m : kids (setn F s n d) m = if m =? n then desc d else kids s m.
Proof. purge. unfold kids, setn, upd. cbn [CoordModel.nodes]. destruct (m =? n); reflexivity. Qed.
Lemma flag_setn s n d m : dirty (setn F s n d) m = if m =? n then changed d else dirty s m.
Proof. purge. unfold dirty, setn, upd. cbn [CoordModel.nodes]. destruct (m =? n); reflexivity. Qed.
Lemma of_node s n d : nodes s n = Some d -> live s n /\ par s n = parent d /\ addr s n = loc d /\ cache s n = wc d /\ kids s n = desc d /\ dirty s n = changed d.
Proof. purge. intros H. unfold live, par, addr, cache, kids, dirty. rewrite H. repeat split. congruence. Qed.
Lemma shape_flag s n d b : nodes s n = Some d -> shape s (setn F s n (set_changed d b)).
Proof. purge.
  intros H m. destruct (of_node s n d H) as (L & P & A & W & K & _).
  rewrite live_setn, par_setn, addr_setn, wca_setn, kids_setn. cbn [set_changed parent loc wc desc].
  destruct (Nat.eqb_spec m n) as [->|]; repeat split; try congruence; try tauto.
Qed.
Lemma live_node s n : live s n -> exists d, nodes s n = Some d.
Proof. purge. unfold live. destruct (nodes s n) as [d|]; [eauto|congruence]. Qed.

(** ** :changed marks everything below *)
Lemma mark_ok H : forall f s n k, bounded s H -> depth s n k -> H - k < f ->
  (forall p, above s n p -> links s p) -> (forall p c, above s n p -> par s c = Some p -> dirty s p = true -> dirty s c = true) ->
  exists s', mark f s n = Some s' /\ shape s s' /\ mem s' = mem s /\ next s' = next s /\ args F s' = args F s /\
    forall m, live s m -> dirty s' m = true <-> dirty s m = true \/ above s n m.
Proof. purge.
  induction f as [|f IH]; intros s n k HB Hk Hf HL HM; [lia|].
  destruct (live_node s n (depth_live _ _ _ Hk)) as [d Hd]. destruct (of_node s n d Hd) as (L & P & A & W & K & Fl).
  cbn [CoordModel.mark]. rewrite Hd. destruct (changed d) eqn:Ec.
  - exists s. split; [reflexivity|]. split; [apply shape_refl|]. do 3 (split; [reflexivity|]).
    intros m _. split; [auto|]. intros [?|Hm]; [assumption|].
    induction Hm as [|m p Pm Hm IHm]; [congruence|]. apply (HM p m); auto.
  - assert (k < H) as HkH by (destruct (HB n L) as (j & ? & Hj); rewrite <- (depth_fun _ _ _ Hk _ Hj); assumption).
    set (s0 := setn F s n (set_changed d true)).
    assert (shape s s0) as S0 by (apply shape_flag; exact Hd).
    assert (forall m, dirty s0 m = true <-> dirty s m = true \/ n = m) as F0.
    { intros m. unfold s0. rewrite flag_setn. cbn [set_changed changed]. destruct (Nat.eqb_spec m n) as [->|]; split; intros; auto.
      destruct H0; [assumption|congruence]. }
    assert (forall l si done, incl l (desc d) -> shape s si -> mem si = mem s -> next si = next s -> args F si = args F s ->
      (forall m, live s m -> dirty si m = true <-> dirty s m = true \/ n = m \/ exists c, In c done /\ above s c m) ->
      exists s', fold_left (fun (o : option st) c => match o with Some s => mark f s c | None => None end) l (Some si) = Some s' /\ shape s s' /\
        mem s' = mem s /\ next s' = next s /\ args F s' = args F s /\
        (forall m, live s m -> dirty s' m = true <-> dirty s m = true \/ n = m \/ exists c, In c (done ++ l) /\ above s c m)) as Fold.
    { induction l as [|c l IHl]; intros si done Hin S1 E1 E2 E3 F1; cbn [fold_left].
      - exists si. split; [reflexivity|]. rewrite app_nil_r. auto.
      - assert (par s c = Some n) as Pc.
        { apply (HL n); [constructor|]. rewrite K. apply Hin. left. reflexivity. }
        assert (depth s c (S k)) as Hc by (apply depth_S with n; [exact (par_live _ _ _ Pc)|exact Pc|exact Hk]).
        destruct (IH si c (S k)) as (s' & E & S2 & M1 & M2 & M3 & F2).
        + intros m Lm. apply (S1 m) in Lm. destruct (HB m Lm) as (j & ? & Hj). exists j. split; [assumption|]. apply (shape_depth s si); assumption.
        + apply (shape_depth s si); assumption.
        + lia.
        + intros p Hp c'. apply (shape_above si s) in Hp; [|apply shape_sym; exact S1].
          destruct (S1 p) as (_ & _ & _ & _ & ->), (S1 c') as (_ & -> & _). apply HL. apply above_child with c; assumption.
        + intros p c' Hp Pc' Fp. apply (shape_above si s) in Hp; [|apply shape_sym; exact S1].
          destruct (S1 c') as (_ & Ep & _). rewrite Ep in Pc'. pose proof (par_live _ _ _ Pc') as Lc'.
          assert (live s p) as Lp.
          { destruct (HB c' Lc') as (j & _ & Hj). destruct (depth_par _ _ _ _ Hj Pc') as (i & _ & Hi). exact (depth_live _ _ _ Hi). }
          apply F1; [exact Lc'|]. apply F1 in Fp; [|exact Lp]. destruct Fp as [Fp|[Fp|(c2 & Hc2 & Hc2')]].
          * left. apply (HM p c'); auto. apply above_child with c; assumption.
          * exfalso. subst p. destruct (above_depth _ _ _ Hp k Hk) as (j & Hj & Hle & _). rewrite (depth_fun _ _ _ Hc _ Hj) in Hle. lia.
          * right. right. exists c2. split; [exact Hc2|]. apply above_step with p; assumption.
        + rewrite E. destruct (IHl s' (done ++ [c])) as (s'' & E' & R).
          * intros x Hx. apply Hin. right. exact Hx.
          * apply shape_trans with si; assumption.
          * congruence.
          * congruence.
          * congruence.
          * intros m Lm. rewrite F2 by (apply S1; exact Lm). rewrite F1 by exact Lm. split.
            -- intros [[?|[?|(c2 & ? & ?)]]|Ha]; auto; right; right; [exists c2|exists c]; rewrite in_app_iff; cbn [In]; split; auto.
               apply (shape_above si s); [apply shape_sym; exact S1|exact Ha].
            -- intros [?|[?|(c2 & Hc2 & ?)]]; auto. rewrite in_app_iff in Hc2. cbn [In] in Hc2. destruct Hc2 as [?|[<-|[]]]; [left; eauto|].
               right. apply (shape_above s si); assumption.
          * exists s''. split; [exact E'|]. rewrite <- app_assoc in R. exact R. }
    destruct (Fold (desc d) s0 []) as (s' & E & S1 & M1 & M2 & M3 & F1).
    + apply incl_refl.
    + exact S0.
    + reflexivity.
    + reflexivity.
    + reflexivity.
    + intros m _. rewrite F0. split; [intros [?|?]; auto|]. intros [?|[?|(c & [] & _)]]; auto.
    + exists s'. split; [exact E|]. do 4 (split; [assumption|]). intros m Lm. rewrite (F1 m Lm). cbn [app]. split.
      * intros [?|[<-|(c & Hc & Hm)]]; [auto|right; constructor|]. right. apply above_child with c; [|exact Hm].
        apply (HL n); [constructor|]. rewrite K. exact Hc.
      * intros [?|Hm]; [auto|]. right. destruct (above_split _ _ _ Hm) as [?|(c & Pc & Hc)]; [auto|]. right. exists c. split; [|exact Hc].
        rewrite <- K. apply (HL n); [constructor|exact Pc].
Qed.

(** ** :worldcoords *)
Lemma parent_live E s n p : InvE E s -> par s n = Some p -> live s p.
Proof. purge.
  intros I Hp. destruct (i_b E s I) as (H & HB). destruct (HB n (par_live _ _ _ Hp)) as (k & _ & Hk).
  destruct (depth_par _ _ _ _ Hk Hp) as (j & _ & Hj). exact (depth_live _ _ _ Hj).
Qed.
(** only caches change *)
Record calm (s s' : st) : Prop := {
  c_shape : shape s s';
  c_mem : forall a, (forall m, live s m -> dirty s m = true -> cache s m <> a) -> mem s' a = mem s a;
  c_next : next s' = next s;
  c_args : args F s' = args F s;
  c_clean : forall m, dirty s m = false -> dirty s' m = false }.
Lemma calm_refl s : calm s s.
Proof. purge. constructor; auto. apply shape_refl. Qed.
Lemma calm_trans (a b c : st) : calm a b -> calm b c -> calm a c.
Proof. purge.
  intros [A1 A2 A3 A4 A5] [B1 B2 B3 B4 B5]. constructor; try congruence.
  - apply shape_trans with b; assumption.
  - intros x Hx. rewrite B2, A2; auto. intros m Lm Fm. apply A1 in Lm. destruct (A1 m) as (_ & _ & _ & -> & _). apply Hx; [exact Lm|].
    destruct (dirty a m) eqn:Ef; [reflexivity|]. rewrite (A5 m Ef) in Fm. discriminate.
  - intros m Fm. apply B5, A5, Fm.
Qed.
Lemma calm_local s s' m : sep s -> calm s s' -> live s m -> local s' m = local s m.
Proof. purge.
  intros Hs [A1 A2 _ _ _] Lm. unfold local. destruct (A1 m) as (_ & _ & -> & _). apply A2. intros m' Lm' _. apply not_eq_sym, (sp_lw s Hs); assumption.
Qed.
Lemma pose_same s s' n T : (forall m, live s' m <-> live s m) -> (forall m, par s' m = par s m) -> (forall m, live s m -> local s' m = local s m) ->
  pose s n T -> pose s' n T.
Proof. purge.
  intros HL HP HA. induction 1 as [n L P|n p T L P _ IH].
  - rewrite <- (HA n L). constructor; [apply HL; exact L|]. rewrite HP. exact P.
  - rewrite <- (HA n L). apply pose_child with p; [apply HL; exact L|rewrite HP; exact P|exact IH].
Qed.
Lemma calm_pose s s' n T : sep s -> calm s s' -> pose s n T -> pose s' n T.
Proof. purge.
  intros Hs Hc. apply pose_same; intros m; [apply (c_shape s s' Hc)|destruct (c_shape s s' Hc m) as (_ & -> & _); reflexivity|].
  apply calm_local; assumption.
Qed.
Lemma pose_fun s n T : pose s n T -> forall T', pose s n T' -> T' = T.
Proof. purge.
  induction 1 as [n L P|n p T L P _ IH]; intros T' H'; inversion H'; subst; try congruence. f_equal. apply IH. congruence.
Qed.
Lemma pose_ex s n k : depth s n k -> exists T, pose s n T.
Proof. purge.
  induction 1 as [n L P|n p k L P _ [T IH]]; [exists (local s n); constructor; assumption|].
  exists (tc T (local s n)). apply pose_child with p; assumption.
Qed.
(** a clean cache holds the place *)
Lemma clean_pose E s n k : InvE E s -> depth s n k -> (forall m, above s m n -> ~ E m) -> dirty s n = false -> pose s n (mem s (cache s n)).
Proof. purge.
  intros I Hk. induction Hk as [n L P|n p k L P Hp IH]; intros HE Fn.
  - rewrite (i_c E s I n L Fn (HE n (above_refl s n))), P. constructor; assumption.
  - rewrite (i_c E s I n L Fn (HE n (above_refl s n))), P. apply pose_child with p; [assumption|assumption|]. apply IH.
    + intros m Hm. apply HE. apply above_step with p; assumption.
    + destruct (dirty s p) eqn:Ef; [|reflexivity]. rewrite (i_m E s I n p P Ef) in Fn. discriminate.
Qed.
Lemma world_ok E : forall f s n k, InvE E s -> depth s n k -> k < f ->
  exists s', worldcoords f s n = Some (s', cache s n) /\ calm s s' /\ InvE E s' /\ dirty s' n = false /\
    (forall m j, depth s m j -> k < j -> nodes s' m = nodes s m).
Proof. purge.
  induction f as [|f IH]; intros s n k I Hk Hf; [lia|].
  destruct (live_node s n (depth_live _ _ _ Hk)) as [d Hd]. destruct (of_node s n d Hd) as (L & P & A & W & K & Fl).
  cbn [CoordModel.worldcoords]. rewrite Hd. destruct (changed d) eqn:Ec.
  2: { exists s. rewrite W. split; [reflexivity|]. split; [apply calm_refl|]. auto. }
  (* the value is stored, then the dirty cleared *)
  assert (forall s1 v, calm s s1 -> InvE E s1 -> nodes s1 n = Some d ->
    v = match par s n with None => local s1 n | Some p => tc (mem s1 (cache s1 p)) (local s1 n) end ->
    (forall p, par s n = Some p -> dirty s1 p = false) ->
    let s' := setn F (put F s1 (wc d) v) n (set_changed d false) in calm s s' /\ InvE E s' /\ dirty s' n = false) as Done.
  { intros s1 v C1 I1 Hd1 Hv Hp s'.
    assert (shape s1 s') as S1 by (apply (shape_flag (put F s1 (wc d) v) n d false); exact Hd1).
    destruct (of_node s1 n d Hd1) as (L1 & P1 & A1 & W1 & K1 & Fl1).
    assert (forall a, mem s' a = if a =? wc d then v else mem s1 a) as Hm by reflexivity.
    assert (forall m, dirty s' m = if m =? n then false else dirty s1 m) as Hfl by (intros m; unfold s'; rewrite flag_setn; reflexivity).
    assert (forall m, live s1 m -> local s' m = local s1 m) as Hloc.
    { intros m Lm. unfold local. destruct (S1 m) as (_ & _ & -> & _). rewrite Hm.
      destruct (Nat.eqb_spec (addr s1 m) (wc d)) as [Ew|_]; [|reflexivity]. exfalso. apply (sp_lw s1 (i_s E s1 I1) m n Lm L1). congruence. }
    assert (forall m, live s1 m -> m <> n -> mem s' (cache s' m) = mem s1 (cache s1 m)) as Hwc.
    { intros m Lm Nm. destruct (S1 m) as (_ & _ & _ & -> & _). rewrite Hm.
      destruct (Nat.eqb_spec (cache s1 m) (wc d)) as [Ew|_]; [|reflexivity]. exfalso. apply (sp_w s1 (i_s E s1 I1) m n Lm L1 Nm). congruence. }
    split; [|split].
    - apply calm_trans with s1; [exact C1|]. constructor; [exact S1| |reflexivity|reflexivity|].
      + intros a Ha. rewrite Hm. destruct (Nat.eqb_spec a (wc d)) as [->|]; [|reflexivity]. exfalso. apply (Ha n L1); [congruence|]. exact W1.
      + intros m Fm. rewrite Hfl. destruct (Nat.eqb_spec m n) as [->|N]; [congruence|exact Fm].
    - destruct (i_s E s1 I1) as [B1 B2 B3 B4 B5 B6]. constructor.
      + destruct (i_b E s1 I1) as (H & HB). exists H. intros m Lm. apply S1 in Lm. destruct (HB m Lm) as (j & ? & Hj). exists j.
        split; [assumption|]. apply (shape_depth s1 s'); assumption.
      + intros p c. destruct (S1 p) as (_ & _ & _ & _ & ->), (S1 c) as (_ & -> & _). apply (i_l E s1 I1).
      + constructor.
        * intros a b La Lb. destruct (S1 a) as (E1 & _ & -> & _ & _), (S1 b) as (E2 & _ & _ & -> & _). apply B1; tauto.
        * intros a b La Lb. destruct (S1 a) as (E1 & _ & -> & _ & _), (S1 b) as (E2 & _ & -> & _ & _). apply B2; tauto.
        * intros a b La Lb. destruct (S1 a) as (E1 & _ & _ & -> & _), (S1 b) as (E2 & _ & _ & -> & _). apply B3; tauto.
        * intros a La. destruct (S1 a) as (E1 & _ & -> & -> & _). apply B4. tauto.
        * exact B5.
        * rewrite Hm. destruct (Nat.eqb_spec 0 (wc d)) as [Ew|_]; [|exact B6]. exfalso. destruct (B4 n L1). lia.
      + intros m p Pm. rewrite !Hfl. destruct (S1 m) as (_ & Ep & _). rewrite Ep in Pm. destruct (Nat.eqb_spec p n) as [->|N]; [discriminate|]. intros Fp.
        destruct (Nat.eqb_spec m n) as [->|]; [|apply (i_m E s1 I1 m p); assumption].
        rewrite Hp in Fp; [discriminate|]. destruct (c_shape _ _ C1 n) as (_ & <- & _). exact Pm.
      + intros m Lm Fm HE. apply S1 in Lm. rewrite Hfl in Fm. unfold coh1. destruct (S1 m) as (_ & -> & _). rewrite Hloc by exact Lm.
        destruct (Nat.eqb_spec m n) as [->|N].
        * destruct (S1 n) as (_ & _ & _ & -> & _). rewrite Hm, W1, Nat.eqb_refl, Hv. destruct (c_shape _ _ C1 n) as (_ & Ep & _). rewrite Ep.
          destruct (par s n) as [p|] eqn:Epn; [|reflexivity]. f_equal. symmetry. apply Hwc.
          -- apply (parent_live E s1 n p I1). rewrite Ep. reflexivity.
          -- intros ->. destruct (depth_par _ _ _ _ Hk Epn) as (j & -> & Hj). pose proof (depth_fun _ _ _ Hk _ Hj). lia.
        * rewrite Hwc by assumption. rewrite (i_c E s1 I1 m Lm Fm HE). destruct (par s1 m) as [p|] eqn:Epm; [|reflexivity]. f_equal.
          assert (live s1 p) as Lp by (apply (parent_live E s1 m p I1); exact Epm).
          destruct (Nat.eq_dec p n) as [->|Np]; [|symmetry; apply Hwc; assumption]. exfalso.
          rewrite (i_m E s1 I1 m n Epm) in Fm; [discriminate|]. congruence.
    - rewrite Hfl, Nat.eqb_refl. reflexivity. }
  assert (forall s1 v m, m <> n -> nodes (setn F (put F s1 (wc d) v) n (set_changed d false)) m = nodes s1 m) as Far.
  { intros s1 v m N. cbn [setn put CoordModel.nodes]. unfold upd. destruct (Nat.eqb_spec m n); [contradiction|reflexivity]. }
  assert (forall m j, depth s m j -> k < j -> m <> n) as Nm by (intros m j Hj Hlt ->; rewrite (depth_fun _ _ _ Hk _ Hj) in Hlt; lia).
  destruct (parent d) as [p|] eqn:Ep.
  - destruct (depth_par _ _ _ _ Hk P) as (i & -> & Hi).
    destruct (IH s p i I Hi ltac:(lia)) as (s1 & E1 & C1 & I1 & Fp & Same). rewrite E1.
    assert (nodes s1 n = Some d) as Hd1 by (rewrite (Same n (S i) Hk ltac:(lia)); exact Hd).
    assert (cache s p <> cache s n) as Nw.
    { apply (sp_w s (i_s E s I)); [exact (depth_live _ _ _ Hi)|exact L|]. intros ->. pose proof (depth_fun _ _ _ Hk _ Hi). lia. }
    unfold tcp. destruct (Nat.eqb_spec (cache s p) (wc d)) as [Ew|_]; [congruence|]. cbn [andb put CoordModel.nodes]. rewrite Hd1.
    set (v := tc (mem s1 (cache s p)) (mem s1 (loc d))).
    destruct (Done s1 v C1 I1 Hd1) as (D1 & D2 & D3).
    + rewrite P. unfold v, local. destruct (c_shape _ _ C1 p) as (_ & _ & _ & -> & _). destruct (of_node s1 n d Hd1) as (_ & _ & -> & _). reflexivity.
    + intros p' Hp'. rewrite P in Hp'. injection Hp' as <-. exact Fp.
    + eexists. split; [rewrite W; reflexivity|]. split; [exact D1|]. split; [exact D2|]. split; [exact D3|].
      intros m j Hj Hlt. etransitivity; [apply (Far s1 v m (Nm m j Hj Hlt))|]. apply (Same m j Hj). lia.
  - cbn [put CoordModel.nodes]. rewrite Hd. set (v := mem s (loc d)).
    destruct (Done s v (calm_refl s) I Hd) as (D1 & D2 & D3).
    + rewrite P. unfold v, local. rewrite A. reflexivity.
    + rewrite P. discriminate.
    + eexists. split; [rewrite W; reflexivity|]. split; [exact D1|]. split; [exact D2|]. split; [exact D3|].
      intros m j Hj Hlt. apply (Far s v m (Nm m j Hj Hlt)).
Qed.
End Tree.
