(** C105: plans of defsystem. *)
From Coq Require Import List Arith Bool Lia FinFun.
From Verif Require Import DfsModel DfsSpec DfsProofs.
Import ListNotations.

(** Loading: every module once, those it needs before it. *)
Theorem C105_load_partial : forall s rank fuel modules, acyclic s rank -> (forall m, In m modules -> rank m < fuel) ->
  exists p, plan_load s fuel modules = Some p /\ prepared s p /\ NoDup p /\ (forall m, In m modules -> In (Loading m) p) /\ forall m, ~ In (Compiling m) p.
Proof.
  intros s rank fuel ms A L.
  assert (G : forall ms ts, each (fun m ts => if (fun _ _ => true) m ts then make_load s fuel m ts else Some ts) ms ts = each (make_load s fuel) ms ts) by (intros l; induction l as [|x l IH]; intros ts; [reflexivity|]; cbn [each]; destruct (make_load s fuel x ts); auto).
  unfold plan_load, make_transformations. rewrite G.
  destruct (each_loads s rank (make_load s fuel) fuel ms) with (ts := @nil trans) as (t1 & -> & l1 & E1 & N1 & B1 & M1 & O1).
  { intros l t I. destruct (make_load_ok s rank A fuel l t (L l I)) as (t' & T & ls & X & Y & Z & W). exists t'. split; [exact T|]. exists ls. split; [exact X|]. split; [exact Y|].
    split; [|exact W]. intros x Hx. destruct (Z x Hx) as [Z1 Z2]. specialize (L l I). split; [exact Z1 | lia]. }
  rewrite app_nil_r in E1. exists (rev t1). split; [reflexivity|]. split; [apply ok_prepared, O1; constructor|]. split; [|split].
  - apply NoDup_rev. rewrite E1. apply Injective_map_NoDup; [intros x y H; injection H; auto | exact N1].
  - intros m I. rewrite <- in_rev. specialize (M1 m I). apply is_loaded_fresh in M1. destruct M1 as (a1 & a2 & E & _). apply in_rev. rewrite E. apply in_app_iff. right. left. reflexivity.
  - intros m I. apply in_rev in I. rewrite E1 in I. apply in_map_iff in I. destruct I as (x & H & _). discriminate.
Qed.

Lemma each_app f : forall x y ts, each f (x ++ y) ts = match each f x ts with Some ts' => each f y ts' | None => None end.
Proof. induction x as [|m x IH]; intros y ts; [reflexivity|]. cbn [app each]. destruct (f m ts); [apply IH | reflexivity]. Qed.
Lemma compile_loop s rank fuel filt : acyclic s rank -> forall ms, (forall m c, In m ms -> In c (comp_env s m) -> rank c < fuel) -> forall ts,
  exists ts', each (fun m ts => if filt m ts : bool then make_compile s fuel m ts else Some ts) ms ts = Some ts' /\ (ok s ts -> ok s ts') /\ incl (compiles ts) (compiles ts') /\
    (NoDup (compiles ts) -> NoDup (compiles ts')) /\ forall x, In x (compiles ts') -> In x (compiles ts) \/ In x ms /\ exists t, filt x t = true /\ incl (compiles t) (compiles ts').
Proof.
  intros A. induction ms as [|m ms IH]; intros L ts.
  - exists ts. split; [reflexivity|]. split; [auto|]. split; [intros x; auto|]. split; auto.
  - cbn [each]. destruct (filt m ts) eqn:F.
    + destruct (make_compile_ok s rank fuel m ts A (fun c => L m c (or_introl eq_refl))) as (t1 & -> & O1 & C1).
      destruct (IH (fun k c I => L k c (or_intror I)) t1) as (t2 & -> & O2 & I2 & N2 & X2). exists t2. split; [reflexivity|].
      assert (I1 : incl (compiles ts) (compiles t1)) by (rewrite C1; destruct (is_compiled m ts); [intros x; auto | intros x H; right; exact H]).
      split; [auto|]. split; [intros x H; apply I2, I1, H|]. split.
      * intros N. apply N2. rewrite C1. destruct (is_compiled m ts) eqn:E; [exact N|]. constructor; [|exact N]. intros H. apply compiles_in, is_compiled_in in H. congruence.
      * intros x H. destruct (X2 x H) as [H' | (H1 & H2)]; [|right; split; [right; exact H1 | exact H2]]. rewrite C1 in H'. destruct (is_compiled m ts); [left; exact H'|].
        destruct H' as [<- | H']; [|left; exact H']. right. split; [left; reflexivity|]. exists ts. split; [exact F|]. intros y Hy. apply I2, I1, Hy.
    + destruct (IH (fun k c I => L k c (or_intror I)) ts) as (t2 & -> & O2 & I2 & N2 & X2). exists t2. split; [reflexivity|]. split; [auto|]. split; [auto|]. split; [auto|].
      intros x H. destruct (X2 x H) as [H' | (H1 & H2)]; [left; exact H' | right; split; [right; exact H1 | exact H2]].
Qed.
Lemma compiles_rev p m : In m (compiles p) <-> In (Compiling m) (rev p).
Proof. rewrite compiles_in. apply in_rev. Qed.
(** Compiling: what is out of date or has a reason among those before it is compiled, nothing else is, each once, and what its compilation needs is loaded then,
    as compiled last. *)
Theorem C105_compile_partial : forall s rank fuel modules, acyclic s rank -> NoDup modules -> (forall m c, In m modules -> In c (comp_env s m) -> rank c < fuel) ->
  exists p, plan_compile s fuel modules = Some p /\ prepared s p /\
    (forall a m b, p = a ++ Compiling m :: b -> ~ In (Compiling m) a /\ ~ In (Compiling m) b) /\
    (forall m, In m modules -> stale s m = true -> In (Compiling m) p) /\
    (forall x m y r, modules = x ++ m :: y -> In r x -> In r (recomp_reasons s m) -> In (Compiling r) p -> In (Compiling m) p) /\
    (forall m, In (Compiling m) p -> In m modules /\ (stale s m = true \/ exists r, In r (recomp_reasons s m) /\ In (Compiling r) p)).
Proof.
  intros s rank fuel ms A ND L. destruct (compile_loop s rank fuel (compile_filter s) A ms L []) as (ts & E & O & _ & N & X).
  unfold plan_compile, make_transformations. rewrite E. exists (rev ts). split; [reflexivity|]. split; [apply ok_prepared, O; constructor|].
  (* what happens at one module *)
  assert (At : forall x m y, ms = x ++ m :: y -> exists t, (forall r, In r x -> In (Compiling r) (rev ts) -> In r (compiles t) \/ r = m) /\ (compile_filter s m t = true -> In (Compiling m) (rev ts))).
  { intros x m y Q. subst ms. rewrite each_app in E.
    destruct (compile_loop s rank fuel (compile_filter s) A x (fun k c I => L k c (in_or_app _ _ _ (or_introl I))) []) as (t & Et & _). rewrite Et in E. exists t.
    cbn [each] in E. assert (Ly : forall k c, In k y -> In c (comp_env s k) -> rank c < fuel) by (intros k c I; apply L, in_or_app; right; right; exact I).
    assert (Lm : forall c, In c (comp_env s m) -> rank c < fuel) by (intros c; apply L, in_or_app; right; left; reflexivity).
    destruct (make_compile_ok s rank fuel m t A Lm) as (t1 & E1 & _ & C1). split.
    - intros r Ir Ic. apply compiles_rev in Ic. destruct (compile_filter s m t); [rewrite E1 in E|].
      + destruct (compile_loop s rank fuel (compile_filter s) A y Ly t1) as (t2 & E2 & _ & _ & _ & X2). rewrite E2 in E. injection E as ->.
        destruct (X2 r Ic) as [H | [H _]].
        * rewrite C1 in H. destruct (is_compiled m t); [left; exact H|]. destruct H as [H | H]; [right; auto | left; exact H].
        * exfalso. apply NoDup_remove in ND. clear - ND Ir H L. apply in_split in Ir. destruct Ir as (u & v & ->). destruct ND as [ND _]. rewrite <- app_assoc in ND. cbn [app] in ND.
          apply NoDup_remove_2 in ND. apply ND. rewrite !in_app_iff. auto.
      + destruct (compile_loop s rank fuel (compile_filter s) A y Ly t) as (t2 & E2 & _ & _ & _ & X2). rewrite E2 in E. injection E as ->.
        destruct (X2 r Ic) as [H | [H _]]; [left; exact H|].
        exfalso. apply NoDup_remove in ND. clear - ND Ir H L. apply in_split in Ir. destruct Ir as (u & v & ->). destruct ND as [ND _]. rewrite <- app_assoc in ND. cbn [app] in ND.
        apply NoDup_remove_2 in ND. apply ND. rewrite !in_app_iff. auto.
    - intros F. rewrite F, E1 in E. destruct (compile_loop s rank fuel (compile_filter s) A y Ly t1) as (t2 & E2 & _ & I2 & _). rewrite E2 in E. injection E as ->.
      apply compiles_rev, I2. rewrite C1. destruct (is_compiled m t) eqn:K; [apply compiles_in, is_compiled_in, K | left; reflexivity]. }
  split; [|split; [|split]].
  - specialize (N (NoDup_nil _)). intros a m b P. assert (K : compiles ts = rev (compiles (a ++ Compiling m :: b))).
    { rewrite <- P. clear. induction ts as [|t ts IH]; [reflexivity|]. cbn [rev]. unfold compiles in *. rewrite flat_map_app, rev_app_distr. destruct t; cbn [flat_map rev app]; rewrite IH; reflexivity. }
    rewrite K in N. apply NoDup_rev in N. rewrite rev_involutive in N. unfold compiles in N. rewrite flat_map_app in N. cbn [flat_map app] in N. fold (compiles a) (compiles b) in N.
    apply NoDup_remove_2 in N. rewrite in_app_iff in N. split; intros I; apply N; [left | right]; apply compiles_in, I.
  - intros m I St. apply in_split in I. destruct I as (x & y & Q). destruct (At x m y Q) as (t & _ & G). apply G. unfold compile_filter. rewrite St. apply orb_true_r.
  - intros x m y r Q Ir Rr Cr. destruct (At x m y Q) as (t & H & G). destruct (H r Ir Cr) as [I | ->]; [|exact Cr]. apply G. unfold compile_filter. apply orb_true_iff. left.
    apply existsb_exists. exists r. split; [exact Rr | apply is_compiled_in, compiles_in, I].
  - intros m I. apply compiles_rev in I. destruct (X m I) as [[] | (H1 & t & F & C)]. split; [exact H1|]. unfold compile_filter in F. apply orb_true_iff in F. destruct F as [F | F]; [|left; exact F].
    right. apply existsb_exists in F. destruct F as (r & Rr & F). exists r. split; [exact Rr|]. apply compiles_rev, C, compiles_in, is_compiled_in, F.
Qed.
(** Recompiling compiles everything. *)
Theorem C105_recompile_partial : forall s rank fuel modules, acyclic s rank -> (forall m c, In m modules -> In c (comp_env s m) -> rank c < fuel) ->
  exists p, plan_recompile s fuel modules = Some p /\ prepared s p /\ forall m, In (Compiling m) p <-> In m modules.
Proof.
  intros s rank fuel ms A L. destruct (compile_loop s rank fuel (fun _ _ => true) A ms L []) as (ts & E & O & _ & N & X).
  unfold plan_recompile, make_transformations. rewrite E. exists (rev ts). split; [reflexivity|]. split; [apply ok_prepared, O; constructor|].
  intros m. split; intros I; [apply compiles_rev in I; destruct (X m I) as [[] | (H & _)]; exact H|].
  apply in_split in I. destruct I as (x & y & ->). rewrite each_app in E.
  destruct (compile_loop s rank fuel (fun _ _ => true) A x (fun k c I => L k c (in_or_app _ _ _ (or_introl I))) []) as (t & Et & _). rewrite Et in E. cbn [each] in E.
  destruct (make_compile_ok s rank fuel m t A (fun c => L m c (in_elt _ _ _))) as (t1 & E1 & _ & C1). rewrite E1 in E.
  destruct (compile_loop s rank fuel (fun _ _ => true) A y (fun k c I => L k c (in_or_app x (m :: y) k (or_intror (or_intror I)))) t1) as (t2 & E2 & _ & I2 & _). rewrite E2 in E. injection E as ->.
  apply compiles_rev, I2. rewrite C1. destruct (is_compiled m t) eqn:K; [apply compiles_in, is_compiled_in, K | left; reflexivity].
Qed.

(** Modules that need each other are never planned; a module is not compiled for a reason that comes after it. *)
Definition mutual : system := Sys (fun m => [1 - m]) (fun _ => []) (fun _ => []) (fun _ => false).
Definition late : system := Sys (fun _ => []) (fun _ => []) (fun m => match m with 0 => [1] | _ => [] end) (fun m => m =? 1).
Theorem C105_refuted : (forall fuel, plan_load mutual fuel [0; 1] = None) /\
  exists p, plan_compile late 1 [0; 1] = Some p /\ In 1 (recomp_reasons late 0) /\ In (Compiling 1) p /\ ~ In (Compiling 0) p.
Proof.
  split.
  - assert (K : forall fuel m, m < 2 -> make_load mutual fuel m [] = None).
    { induction fuel as [|n IH]; intros m Hm; [reflexivity|]. cbn [make_load is_loaded mutual load_env each]. rewrite IH by lia. reflexivity. }
    intros fuel. unfold plan_load, make_transformations. cbn [each]. rewrite K by lia. reflexivity.
  - eexists. split; [reflexivity|]. cbn. split; [auto|]. split; [auto|]. intros [H | []]. discriminate.
Qed.

(** the system of the description of defsystem: classes 0, methods 1, precom 2; the methods have been changed *)
Definition own : system :=
  Sys (fun m => match m with 0 => [2] | 1 => [2; 0] | _ => [] end) (fun m => match m with 1 => [0] | 2 => [0; 1] | _ => [] end)
      (fun m => match m with 2 => [0; 1] | _ => [] end) (fun m => m =? 1).
Definition own_rank (m : nat) : nat := match m with 0 => 1 | 1 => 2 | _ => 0 end.
Example C105_example : acyclic own own_rank /\ plan_load own 3 [0; 1; 2] = Some [Loading 2; Loading 0; Loading 1] /\
  plan_compile own 3 [0; 1; 2] = Some [Loading 2; Loading 0; Compiling 1; Loading 1; Compiling 2].
Proof.
  split; [|split; reflexivity]. intros m l. unfold own, own_rank. cbn [load_env]. destruct m as [|[|m]]; cbn [In]; intros H; repeat (destruct H as [<- | H]; [lia|]); destruct H.
Qed.

Print Assumptions C105_load_partial.
Print Assumptions C105_compile_partial.
Print Assumptions C105_recompile_partial.
Print Assumptions C105_refuted.
