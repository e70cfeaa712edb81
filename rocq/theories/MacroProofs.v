(** Proofs about the macros. *)
From Coq Require Import List Arith Bool Lia.
From Verif Require Import CompLang CompEval MacroModel MacroSpec.
Import ListNotations.

Section Proofs.
Variable L : lisp.
Notation ends := (ends L). Notation ends_progn := (ends_progn L). Notation ends_args := (ends_args L).
Notation state := (state L). Notation out := (out L).

(** ** Forms as sets of outcomes *)

Definition mono {A} (F : nat -> option (out A)) : Prop := forall n m o, n <= m -> F n = Some o -> F m = Some o.
Definition some {A} (F : nat -> option (out A)) (o : out A) : Prop := exists n, F n = Some o.

Lemma mono_eval : forall x e s, mono (fun n => eval L n x e s). Proof. intros x e s n m o. apply eval_more. Qed.
Lemma mono_progn : forall x e s, mono (fun n => ev_progn L (eval L n) x e s). Proof. intros x e s n m o. apply progn_more. Qed.
Lemma mono_args : forall x e s, mono (fun n => ev_args L (eval L n) x e s). Proof. intros x e s n m o. apply args_more. Qed.
Lemma mono_const : forall A (o : option (out A)), mono (fun _ => o). Proof. intros A o n m r _ E. exact E. Qed.
Lemma mono_bind : forall A B (P : nat -> option (out A)) (F : nat -> A -> env -> state -> option (out B)),
  mono P -> (forall a e s, mono (fun n => F n a e s)) -> mono (fun n => obind L (P n) (F n)).
Proof.
  intros A B P F HP HF n m o N E. destruct (P n) as [r|] eqn:EP; [|discriminate].
  rewrite (HP n m r N EP). destruct r; cbn in *; try exact E. exact (HF _ _ _ _ _ _ N E).
Qed.

Lemma some_det : forall A (F : nat -> option (out A)) o o', mono F -> some F o -> some F o' -> o = o'.
Proof.
  intros A F o o' M (n & E) (m & E'). apply (M n (max n m)) in E; [|lia]. apply (M m (max n m)) in E'; [|lia]. congruence.
Qed.

Lemma ends_det : forall x e s o o', ends x e s o -> ends x e s o' -> o = o'.
Proof. intros x e s o o'. apply some_det. apply mono_eval. Qed.

Lemma shift : forall x e s (F : nat -> option (out V)) o, (forall n, eval L (S n) x e s = F n) ->
  (ends x e s o <-> some F o).
Proof.
  intros x e s F o H. split.
  - intros ([|n] & E); [discriminate|]. exists n. rewrite <- H. exact E.
  - intros (n & E). exists (S n). rewrite H. exact E.
Qed.

Lemma seq_obind : forall A B (P : nat -> option (out A)) (F : nat -> A -> env -> state -> option (out B)) o,
  mono P -> (forall a e s, mono (fun n => F n a e s)) ->
  (some (fun n => obind L (P n) (F n)) o <-> seq L (some P) (fun a e s => some (fun n => F n a e s)) o).
Proof.
  intros A B P F o HP HF. split.
  - intros (n & E). destruct (P n) as [r|] eqn:EP; [|discriminate]. exists r. split; [exists n; exact EP|].
    destruct r; cbn in E; [exists n; exact E|congruence..].
  - intros (r & (n & E) & H). destruct r as [a e s|b v e s|t e s|].
    + destruct H as (m & E'). exists (max n m). rewrite (HP n (max n m) _ (Nat.le_max_l _ _) E). cbn.
      exact (HF a e s m _ o (Nat.le_max_r _ _) E').
    + exists n. rewrite E. subst o. reflexivity.
    + exists n. rewrite E. subst o. reflexivity.
    + exists n. rewrite E. subst o. reflexivity.
Qed.

Lemma seq_ext : forall A B (P P' : out A -> Prop) (K K' : A -> env -> state -> out B -> Prop) o,
  (forall r, P r <-> P' r) -> (forall a e s, P (Normal a e s) -> (K a e s o <-> K' a e s o)) -> (seq L P K o <-> seq L P' K' o).
Proof.
  intros A B P P' K K' o HP HK. split; intros (r & H1 & H2); exists r.
  - split; [apply HP; exact H1|]. destruct r; try exact H2. apply HK; assumption.
  - split; [apply HP; exact H1|]. destruct r; try exact H2. apply HK; [apply HP; exact H1|exact H2].
Qed.

Lemma seq_normal : forall B (a : V) e s (K : V -> env -> state -> out B -> Prop) (P : out V -> Prop) o,
  (forall r, P r <-> r = Normal a e s) -> (seq L P K o <-> K a e s o).
Proof.
  intros B a e s K P o H. split.
  - intros (r & H1 & H2). apply H in H1. subst r. exact H2.
  - intros H1. exists (Normal a e s). split; [apply H; reflexivity|exact H1].
Qed.

Lemma some_const : forall A (r o : out A), some (fun _ => Some r) o <-> o = r.
Proof. intros A r o. split; [intros (n & E); congruence|intros ->; exists 0; reflexivity]. Qed.

Lemma ends_const : forall v e s o, ends (Const v) e s o <-> o = Normal v e s.
Proof. intros. rewrite (shift _ _ _ (fun _ => Some (Normal v e s))) by reflexivity. apply some_const. Qed.
Lemma ends_var : forall x e s o, ends (Var x) e s o <-> o = Normal (read L x e s) e s.
Proof. intros. rewrite (shift _ _ _ (fun _ => Some (Normal (read L x e s) e s))) by reflexivity. apply some_const. Qed.
Lemma ends_go : forall t e s o, ends (Go t) e s o <-> o = Jump t e s.
Proof. intros. rewrite (shift _ _ _ (fun _ => Some (Jump t e s))) by reflexivity. apply some_const. Qed.

Lemma ends_progn_some : forall l e s o, ends_progn l e s o <-> some (fun n => ev_progn L (eval L n) l e s) o.
Proof. intros. apply shift. reflexivity. Qed.

Lemma ends_progn_nil : forall e s o, ends_progn [] e s o <-> o = Normal NIL e s.
Proof. intros. rewrite ends_progn_some. apply some_const. Qed.
Lemma ends_progn_one : forall a e s o, ends_progn [a] e s o <-> ends a e s o.
Proof. intros. rewrite ends_progn_some. reflexivity. Qed.
Lemma ends_progn_cons : forall a b l e s o,
  ends_progn (a :: b :: l) e s o <-> seq L (ends a e s) (fun _ e s => ends_progn (b :: l) e s) o.
Proof.
  intros. rewrite ends_progn_some.
  rewrite (seq_obind _ _ (fun n => eval L n a e s) (fun n _ e s => ev_progn L (eval L n) (b :: l) e s)).
  - apply seq_ext; [reflexivity|]. intros. symmetry. apply ends_progn_some.
  - apply mono_eval.
  - intros. apply mono_progn.
Qed.

Lemma ends_if : forall c a b e s o,
  ends (If c a b) e s o <-> seq L (ends c e s) (fun v e s => if V_eqb v NIL then ends b e s else ends a e s) o.
Proof.
  intros. rewrite (shift _ _ _ (fun n => obind L (eval L n c e s) (fun v e s => if V_eqb v NIL then eval L n b e s else eval L n a e s))) by reflexivity.
  rewrite (seq_obind _ _ (fun n => eval L n c e s) (fun n v e s => if V_eqb v NIL then eval L n b e s else eval L n a e s)).
  - apply seq_ext; [reflexivity|]. intros v e1 s1 _. destruct (V_eqb v NIL); reflexivity.
  - apply mono_eval.
  - intros v e1 s1. destruct (V_eqb v NIL); apply mono_eval.
Qed.

Lemma ends_null : forall a e s o,
  ends (Null a) e s o <-> seq L (ends a e s) (fun v e s o => o = Normal (truth (V_eqb v NIL)) e s) o.
Proof.
  intros. rewrite (shift _ _ _ (fun n => obind L (eval L n a e s) (fun v e s => Some (Normal (truth (V_eqb v NIL)) e s)))) by reflexivity.
  rewrite (seq_obind _ _ (fun n => eval L n a e s) (fun n v e s => Some (Normal (truth (V_eqb v NIL)) e s))).
  - apply seq_ext; [reflexivity|]. intros. apply some_const.
  - apply mono_eval.
  - intros. apply mono_const.
Qed.

Lemma ends_eq_const : forall x v e s o,
  ends (Eq (Var x) (Const v)) e s o <-> o = Normal (truth (V_eqb (read L x e s) v)) e s.
Proof.
  intros. split.
  - intros ([|[|n]] & E); [discriminate|discriminate|]. cbn in E. congruence.
  - intros ->. exists 2. reflexivity.
Qed.

Lemma ends_call2_const : forall f x v e s o,
  ends (Call f [Var x; Const v]) e s o <->
  o = match call L f [read L x e s; v] (gl L s) (wd L s) with Some (r, g, w) => Normal r e (mkState L g w) | None => Err end.
Proof.
  intros. split.
  - intros ([|[|n]] & E); [discriminate|discriminate|]. cbn in E.
    destruct (call L f _ _ _) as [[[r g] w]|]; congruence.
  - intros ->. exists 2. cbn. destruct (call L f _ _ _) as [[[r g] w]|]; reflexivity.
Qed.

Lemma ends_call2_var : forall f x y e s o,
  ends (Call f [Var x; Var y]) e s o <->
  o = match call L f [read L x e s; read L y e s] (gl L s) (wd L s) with Some (r, g, w) => Normal r e (mkState L g w) | None => Err end.
Proof.
  intros. split.
  - intros ([|[|n]] & E); [discriminate|discriminate|]. cbn in E.
    destruct (call L f _ _ _) as [[[r g] w]|]; congruence.
  - intros ->. exists 2. cbn. destruct (call L f _ _ _) as [[[r g] w]|]; reflexivity.
Qed.

Lemma ends_return : forall b a e s o,
  ends (ReturnFrom b a) e s o <-> seq L (ends a e s) (fun v e s o => o = Exit b v e s) o.
Proof.
  intros. rewrite (shift _ _ _ (fun n => obind L (eval L n a e s) (fun v e s => Some (Exit b v e s)))) by reflexivity.
  rewrite (seq_obind _ _ (fun n => eval L n a e s) (fun n v e s => Some (Exit b v e s))).
  - apply seq_ext; [reflexivity|]. intros. apply some_const.
  - apply mono_eval.
  - intros. apply mono_const.
Qed.

Lemma block_some : forall (F : nat -> option (out V)) o,
  some (fun n => catch_block L 0 (F n)) o <-> block_nil L (some F) o.
Proof.
  intros F o. split.
  - intros (n & E). destruct (F n) as [r|] eqn:EF; [|discriminate]. exists r. split; [exists n; exact EF|exact E].
  - intros (r & (n & E) & H). exists n. rewrite E. exact H.
Qed.

Lemma block_ext : forall (P P' : out V -> Prop) o, (forall r, P r <-> P' r) -> (block_nil L P o <-> block_nil L P' o).
Proof. intros P P' o H. split; intros (r & A & B); exists r; split; try exact B; apply H; exact A. Qed.

Lemma ends_block : forall l e s o, ends (Block 0 l) e s o <-> block_nil L (ends_progn l e s) o.
Proof.
  intros. rewrite (shift _ _ _ (fun n => catch_block L 0 (ev_progn L (eval L n) l e s))) by reflexivity.
  rewrite block_some. apply block_ext. intros r. symmetry. apply ends_progn_some.
Qed.

Lemma leave_some : forall fe fg (F : nat -> option (out V)) o,
  some (fun n => leave L fe fg (F n)) o <-> exists r, some F r /\ leave L fe fg (Some r) = Some o.
Proof.
  intros fe fg F o. split.
  - intros (n & E). destruct (F n) as [r|] eqn:EF; [|discriminate]. exists r. split; [exists n; exact EF|exact E].
  - intros (r & (n & E) & H). exists n. rewrite E. exact H.
Qed.

Lemma mono_leave : forall fe fg (F : nat -> option (out V)), mono F -> mono (fun n => leave L fe fg (F n)).
Proof.
  intros fe fg F H n m o N E. destruct (F n) as [r|] eqn:EF; [|discriminate]. rewrite (H n m r N EF). exact E.
Qed.

Lemma ends_let : forall b l e s o, ends (Let b l) e s o <-> with_vars L b (ends_progn l) e s o.
Proof.
  intros. rewrite (shift _ _ _ (fun n => ev_let L (eval L n) b l e s)) by reflexivity. unfold ev_let.
  rewrite (seq_obind _ _ (fun n => ev_args L (eval L n) (map snd b) e s) (fun n vs e s =>
    leave L _ _ (ev_progn L (eval L n) l _ _))).
  - apply seq_ext; [reflexivity|]. intros vs e1 s1 _. cbv zeta. rewrite leave_some.
    split; intros (r & A & B); exists r; (split; [apply ends_progn_some; exact A|exact B]).
  - apply mono_args.
  - intros vs e1 s1. apply mono_leave. apply mono_progn.
Qed.

Lemma mono_letstar : forall b l e s, mono (fun n => ev_letstar L (eval L n) b l e s).
Proof. intros b l e s n m o H E. apply (eval_more L (S n) (S m) (LetStar b l)); [lia|exact E]. Qed.

Lemma ends_letstar : forall b l e s o, ends (LetStar b l) e s o <-> with_vars_star L b (ends_progn l) e s o.
Proof.
  intros b l e s o. rewrite (shift _ _ _ (fun n => ev_letstar L (eval L n) b l e s)) by reflexivity.
  revert e s o. induction b as [|[x a] b IH]; intros e s o; cbn [ev_letstar with_vars_star].
  - symmetry. apply ends_progn_some.
  - rewrite (seq_obind _ _ (fun n => eval L n a e s) (fun n v e s => if special L x then
        leave L (fun e => e) (fun g => upd g x (gl L s x)) (ev_letstar L (eval L n) b l e (mkState L (upd (gl L s) x v) (wd L s)))
        else leave L (@tl _) (fun g => g) (ev_letstar L (eval L n) b l ((x, v) :: e) s))).
    + apply seq_ext; [reflexivity|]. intros v e1 s1 _. unfold with_var. destruct (special L x); rewrite leave_some;
        split; intros (r & A & B); exists r; (split; [apply IH; exact A|exact B]).
    + apply mono_eval.
    + intros v e1 s1. destruct (special L x); apply mono_leave; apply mono_letstar.
Qed.

Lemma ends_setq_one : forall x a e s o,
  ends (Setq [(x, a)]) e s o <-> seq L (ends a e s) (fun v e s o => o = Normal v (fst (write L x v e s)) (snd (write L x v e s))) o.
Proof.
  intros. rewrite (shift _ _ _ (fun n => obind L (eval L n a e s) (fun v e s => Some (Normal v (fst (write L x v e s)) (snd (write L x v e s)))))) by reflexivity.
  rewrite (seq_obind _ _ (fun n => eval L n a e s) (fun n v e s => Some (Normal v (fst (write L x v e s)) (snd (write L x v e s))))).
  - apply seq_ext; [reflexivity|]. intros. apply some_const.
  - apply mono_eval.
  - intros. apply mono_const.
Qed.

Lemma ends_car_var : forall x e s o, ends (Car (Var x)) e s o <->
  o = if islist L (read L x e s) (wd L s) then Normal (car L (read L x e s) (wd L s)) e s else Err.
Proof.
  intros. split.
  - intros ([|[|n]] & E); [discriminate|discriminate|]. cbn in E. destruct (islist L _ _); congruence.
  - intros ->. exists 2. cbn. destruct (islist L _ _); reflexivity.
Qed.
Lemma ends_cdr_var : forall x e s o, ends (Cdr (Var x)) e s o <->
  o = if islist L (read L x e s) (wd L s) then Normal (cdr L (read L x e s) (wd L s)) e s else Err.
Proof.
  intros. split.
  - intros ([|[|n]] & E); [discriminate|discriminate|]. cbn in E. destruct (islist L _ _); congruence.
  - intros ->. exists 2. cbn. destruct (islist L _ _); reflexivity.
Qed.

(** ** Variables the program does not mention *)

Definition push (b : nat * V) {A} (o : out A) : out A :=
  match o with
  | Normal a e s => Normal a (b :: e) s
  | Exit n v e s => Exit n v (b :: e) s
  | Jump t e s => Jump t (b :: e) s
  | Err => Err
  end.

Lemma rel_push : forall A g u (o o' : option (out A)), orel L g u true 0 0 o o' -> o' = option_map (push (g, u)) o.
Proof.
  intros A g u o o' H. destruct o as [[a e s|b v e s|t e s|]|]; cbn in *.
  1-3: destruct H as (e' & -> & H); inversion H; subst; reflexivity.
  - exact H.
  - apply H. reflexivity.
Qed.

Lemma ends_push : forall g u x e s o, unmentioned g x = true ->
  (ends x ((g, u) :: e) s o <-> exists r, ends x e s r /\ o = push (g, u) r).
Proof.
  intros g u x e s o H.
  assert (E : forall n, eval L n x ((g, u) :: e) s = option_map (push (g, u)) (eval L n x e s)).
  { intros n. apply rel_push. rewrite <- (Nat.add_0_r n) at 2. apply eval_rel; [auto|]. apply (R_here g u true). }
  split.
  - intros (n & X). rewrite E in X. destruct (eval L n x e s) as [r|] eqn:Y; [|discriminate].
    exists r. split; [exists n; exact Y|]. cbn in X. congruence.
  - intros (r & (n & X) & ->). exists n. rewrite E, X. reflexivity.
Qed.

Lemma args_push : forall g u l e s o, forallb (unmentioned g) l = true ->
  (ends_args l ((g, u) :: e) s o <-> exists r, ends_args l e s r /\ o = push (g, u) r).
Proof.
  intros g u l e s o H.
  assert (E : forall n, ev_args L (eval L n) l ((g, u) :: e) s = option_map (push (g, u)) (ev_args L (eval L n) l e s)).
  { intros n. apply rel_push. rewrite <- (Nat.add_0_r n) at 2. apply args_rel; [|auto|apply (R_here g u true)].
    intros x p f f' s' X F. apply eval_rel; assumption. }
  split.
  - intros (n & X). rewrite E in X. destruct (ev_args L (eval L n) l e s) as [r|] eqn:Y; [|discriminate].
    exists r. split; [exists n; exact Y|]. cbn in X. congruence.
  - intros (r & (n & X) & ->). exists n. rewrite E, X. reflexivity.
Qed.

Lemma V_nil : forall v, V_eqb v NIL = true <-> v = NIL.
Proof. intros [| |n]; cbn; split; congruence. Qed.
Lemma V_eqb_eq : forall a b, V_eqb a b = true <-> a = b.
Proof.
  intros [| |n] [| |m]; cbn; split; try congruence. - intros H. apply Nat.eqb_eq in H. congruence.
  - intros H. inversion H; subst. apply Nat.eqb_refl.
Qed.

Lemma ends_is : forall x e s r o, ends x e s r -> (ends x e s o <-> o = r).
Proof. intros x e s r o H. split; [intros H'; eapply ends_det; eassumption|intros ->; exact H]. Qed.

(** ** let with new variables *)

Lemma args_nil : forall e s o, ends_args [] e s o <-> o = Normal [] e s.
Proof. intros e s o. apply some_const. Qed.
Lemma args_cons : forall a l e s o, ends_args (a :: l) e s o <->
  seq L (ends a e s) (fun v e s => seq L (ends_args l e s) (fun vs e s o => o = Normal (v :: vs) e s)) o.
Proof.
  intros a l e s o. change (ends_args (a :: l) e s o) with (some (fun n => obind L (eval L n a e s) (fun v e s =>
    obind L (ev_args L (eval L n) l e s) (fun vs e s => Some (Normal (v :: vs) e s)))) o).
  rewrite (seq_obind _ _ (fun n => eval L n a e s) (fun n v e s => obind L (ev_args L (eval L n) l e s) (fun vs e s => Some (Normal (v :: vs) e s)))).
  - apply seq_ext; [reflexivity|]. intros v e1 s1 _.
    rewrite (seq_obind _ _ (fun n => ev_args L (eval L n) l e1 s1) (fun n vs e s => Some (Normal (v :: vs) e s))).
    + apply seq_ext; [reflexivity|]. intros. apply some_const.
    + apply mono_args.
    + intros. apply mono_const.
  - apply mono_eval.
  - intros v e1 s1. apply mono_bind; [apply mono_args|intros; apply mono_const].
Qed.

Lemma args_one : forall a e s o, ends_args [a] e s o <-> seq L (ends a e s) (fun v e s o => o = Normal [v] e s) o.
Proof.
  intros. rewrite args_cons. apply seq_ext; [reflexivity|]. intros v e1 s1 _. split.
  - intros (r & A & B). apply args_nil in A. subst r. exact B.
  - intros ->. exists (Normal [] e1 s1). split; [apply args_nil; reflexivity|reflexivity].
Qed.

Lemma seq_seq : forall A B C (P : out A -> Prop) (F : A -> env -> state -> out B -> Prop) (K : B -> env -> state -> out C -> Prop) o,
  seq L (seq L P F) K o <-> seq L P (fun a e s => seq L (F a e s) K) o.
Proof.
  intros A B C P F K o. split.
  - intros (r & (r0 & P0 & F0) & K0). exists r0. split; [exact P0|]. destruct r0 as [a e s|b v e s|t e s|].
    + exists r. auto.
    + subst r. exact K0. + subst r. exact K0. + subst r. exact K0.
  - intros (r0 & P0 & F0). destruct r0 as [a e s|b v e s|t e s|].
    + destruct F0 as (r & F0 & K0). exists r. split; [exists (Normal a e s); auto|exact K0].
    + subst o. exists (Exit b v e s). split; [exists (Exit b v e s); auto|reflexivity].
    + subst o. exists (Jump t e s). split; [exists (Jump t e s); auto|reflexivity].
    + subst o. exists Err. split; [exists Err; auto|reflexivity].
Qed.

Lemma seq_eq : forall A B (a : A) e s (K : A -> env -> state -> out B -> Prop) o,
  seq L (fun r => r = Normal a e s) K o <-> K a e s o.
Proof.
  intros. split; [intros (r & -> & H); exact H|]. intros H. exists (Normal a e s). auto.
Qed.

Lemma state_eta : forall s : state, mkState L (gl L s) (wd L s) = s. Proof. intros []. reflexivity. Qed.

Lemma leave_id : forall (o : option (out V)), leave L (fun e => e) (fun g => g) o = o.
Proof. intros [[a e s|b v e s|t e s|]|]; cbn; try rewrite state_eta; reflexivity. Qed.

Lemma with_one : forall g a K e s o, special L g = false ->
  (with_vars L [(g, a)] K e s o <-> seq L (ends a e s) (fun v e s => with_var L g v K e s) o).
Proof.
  intros g a K e s o G. unfold with_vars. cbn [map fst snd].
  rewrite (seq_ext _ _ _ _ _ _ _ (args_one a e s) (fun _ _ _ _ => iff_refl _)). rewrite seq_seq.
  apply seq_ext; [reflexivity|]. intros v e1 s1 _. rewrite seq_eq. unfold with_var. cbn [combine filter fst].
  rewrite G. cbn [negb rev app length bind_specials fold_right fst snd skipn]. rewrite state_eta.
  split; intros (r & A & B); exists r; (split; [exact A|]);
    destruct r; cbn [leave] in *; exact B.
Qed.

Lemma with_two : forall x c g a K e s o, special L g = false ->
  (with_vars L [(x, Const c); (g, a)] K e s o <->
   seq L (ends a e s) (fun v e s => with_var L x c (with_var L g v K) e s) o).
Proof.
  intros x c g a K e s o G. unfold with_vars. cbn [map fst snd].
  assert (E : forall r, ends_args [Const c; a] e s r <-> seq L (ends a e s) (fun v e s o => o = Normal [c; v] e s) r).
  { intros r. rewrite args_cons. rewrite (seq_normal _ c e s) by (intros; apply ends_const).
    rewrite (seq_ext _ _ _ _ _ _ _ (args_one a e s) (fun _ _ _ _ => iff_refl _)). rewrite seq_seq.
    apply seq_ext; [reflexivity|]. intros v e1 s1 _. apply seq_eq. }
  rewrite (seq_ext _ _ _ _ _ _ _ E (fun _ _ _ _ => iff_refl _)). rewrite seq_seq.
  apply seq_ext; [reflexivity|]. intros v e1 s1 _. rewrite seq_eq. unfold with_var. cbn [combine filter fst]. rewrite G.
  destruct (special L x) eqn:X; cbn [negb rev app length bind_specials fold_right fst snd skipn].
  - split.
    + intros (r & A & B). exists (match r with Normal a e s => Normal a (tl e) s | Exit b v e s => Exit b v (tl e) s
        | Jump t e s => Jump t (tl e) s | Err => Err end). split.
      * exists r. split; [exact A|]. destruct r; cbn; rewrite ?state_eta; reflexivity.
      * destruct r; cbn in *; exact B.
    + intros (r & (r' & A & B) & C). exists r'. split; [exact A|]. rewrite <- C. destruct r'; cbn in B; inversion B; subst; reflexivity.
  - rewrite state_eta. split.
    + intros (r & A & B). exists (match r with Normal a e s => Normal a (tl e) s | Exit b v e s => Exit b v (tl e) s
        | Jump t e s => Jump t (tl e) s | Err => Err end). split.
      * exists r. split; [exact A|]. destruct r; cbn; rewrite ?state_eta; reflexivity.
      * rewrite <- B. destruct r as [? [|? [|? ?]] ?|? ? [|? [|? ?]] ?|? [|? [|? ?]] ?|]; reflexivity.
    + intros (r & (r' & A & B) & C). exists r'. split; [exact A|]. rewrite <- C.
      destruct r' as [? [|? [|? ?]] ?|? ? [|? [|? ?]] ?|? [|? [|? ?]] ?|]; cbn in B; inversion B; subst; reflexivity.
Qed.

Lemma with_new : forall g v (K : env -> state -> out V -> Prop) (K' : out V -> Prop) e s o, special L g = false ->
  (forall r, K ((g, v) :: e) s r -> exists r' u, K' r' /\ r = push (g, u) r') ->
  (forall r', K' r' -> exists u, K ((g, v) :: e) s (push (g, u) r')) ->
  (with_var L g v K e s o <-> K' o).
Proof.
  intros g v K K' e s o G H H'. unfold with_var. rewrite G. split.
  - intros (r & A & B). apply H in A. destruct A as (r' & u & A & ->).
    destruct r'; cbn in B; rewrite ?state_eta in B; inversion B; subst; exact A.
  - intros A. destruct (H' o A) as (u & B). exists (push (g, u) o). split; [exact B|].
    destruct o; cbn; rewrite ?state_eta; reflexivity.
Qed.

(** the same, when the variable keeps its value *)
Lemma with_same : forall g v (K : env -> state -> out V -> Prop) (K' : out V -> Prop) e s o, special L g = false ->
  (forall r, K ((g, v) :: e) s r <-> exists r', K' r' /\ r = push (g, v) r') ->
  (with_var L g v K e s o <-> K' o).
Proof.
  intros g v K K' e s o G H. apply with_new; [exact G| |].
  - intros r A. apply H in A. destruct A as (r' & A & B). eauto.
  - intros r' A. exists v. apply H. eauto.
Qed.

(** a form that does not mention the variable, and then something *)
Lemma seq_push : forall B g u x e s (K : V -> env -> state -> out B -> Prop) o, unmentioned g x = true ->
  (seq L (ends x ((g, u) :: e) s) K o <-> exists r, ends x e s r /\
     match r with
     | Normal a e s => K a ((g, u) :: e) s o
     | Exit b v e s => o = Exit b v ((g, u) :: e) s
     | Jump t e s => o = Jump t ((g, u) :: e) s
     | Err => o = Err
     end).
Proof.
  intros B g u x e s K o U. split.
  - intros (r & A & C). apply ends_push in A; [|exact U]. destruct A as (q & A & ->). exists q. split; [exact A|].
    destruct q; exact C.
  - intros (r & A & C). exists (push (g, u) r). split; [apply ends_push; [exact U|eauto]|]. destruct r; exact C.
Qed.

Lemma read_new : forall g v e s, special L g = false -> read L g ((g, v) :: e) s = v.
Proof. intros g v e s G. unfold read. rewrite G. cbn [assoc]. rewrite Nat.eqb_refl. reflexivity. Qed.

Lemma write_new : forall g v u e s, special L g = false -> write L g v ((g, u) :: e) s = ((g, v) :: e, s).
Proof. intros g v u e s G. unfold write. rewrite G. cbn [assoc assign]. rewrite Nat.eqb_refl. reflexivity. Qed.

Lemma write_other : forall x v g u e s, x <> g ->
  write L x v ((g, u) :: e) s = ((g, u) :: fst (write L x v e s), snd (write L x v e s)).
Proof.
  intros x v g u e s N. unfold write. destruct (special L x); [reflexivity|]. cbn [assoc].
  replace (Nat.eqb g x) with false by (symmetry; apply Nat.eqb_neq; congruence).
  destruct (assoc x e); [|reflexivity]. cbn [assign].
  replace (Nat.eqb g x) with false by (symmetry; apply Nat.eqb_neq; congruence). reflexivity.
Qed.

(** ** prog1, case *)

Theorem prog1_ok : forall g a l e s o, special L g = false -> forallb (unmentioned g) l = true ->
  (ends (m_prog1 g a l) e s o <-> prog1_spec L a l e s o).
Proof.
  intros g a l e s o G U. unfold m_prog1, prog1_spec. rewrite ends_let, with_one by exact G.
  apply seq_ext; [reflexivity|]. intros v e1 s1 _. apply with_same; [exact G|]. intros r.
  rewrite ends_progn_cons, seq_push by exact U. split.
  - intros (q & A & B). destruct q as [w f t|b w f t|b f t|].
    + apply ends_progn_one, ends_var in B. rewrite read_new in B by exact G. subst r.
      exists (Normal v f t). split; [|reflexivity]. exists (Normal w f t). split; [exact A|reflexivity].
    + exists (Exit b w f t). split; [|exact B]. exists (Exit b w f t). auto.
    + exists (Jump b f t). split; [|exact B]. exists (Jump b f t). auto.
    + exists Err. split; [|exact B]. exists Err. auto.
  - intros (r' & (q & A & B) & ->). exists q. split; [exact A|]. destruct q as [w f t|b w f t|b f t|].
    + unfold value in B. subst r'. apply ends_progn_one, ends_var. rewrite read_new by exact G. reflexivity.
    + subst r'. reflexivity.
    + subst r'. reflexivity.
    + subst r'. reflexivity.
Qed.

Definition matches (memq : nat) (h : head) (keys : option (list V)) : Prop :=
  match h, keys with
  | Otherwise, None => True
  | Atom v, Some l => l = [v]
  | Keys q, Some l => forall v g w, exists r, call L memq [v; q] g w = Some (r, g, w) /\ (r = NIL <-> existsb (V_eqb v) l = false)
  | _, _ => False
  end.

Lemma casebody_ok : forall body e s o, ends (casebody body) e s o <-> ends_progn body e s o.
Proof.
  intros [|a [|b body]] e s o; cbn [casebody].
  - rewrite ends_const. symmetry. apply ends_progn_nil.
  - symmetry. apply ends_progn_one.
  - reflexivity.
Qed.

Lemma case1_ok : forall memq g v clauses keys e s o, special L g = false ->
  Forall2 (fun c k => matches memq (fst c) (fst k) /\ snd c = snd k) clauses keys ->
  (forall c, In c clauses -> forallb (unmentioned g) (snd c) = true) ->
  (ends (case1 memq g clauses) ((g, v) :: e) s o <->
   exists r, ends_progn (choose v keys) e s r /\ o = push (g, v) r).
Proof.
  intros memq g v clauses keys e s o G H. induction H as [|[h body] [k forms] clauses keys [M E] H IH]; intros U.
  - cbn [case1 choose]. rewrite ends_const. split.
    + intros ->. exists (Normal NIL e s). split; [apply ends_progn_nil; reflexivity|reflexivity].
    + intros (r & A & ->). apply ends_progn_nil in A. subst r. reflexivity.
  - cbn [fst snd] in *. subst forms. cbn [case1].
    assert (Ub : forallb (unmentioned g) body = true) by (apply (U (h, body)); left; reflexivity).
    assert (B : forall o, ends (casebody body) ((g, v) :: e) s o <-> exists r, ends_progn body e s r /\ o = push (g, v) r).
    { intros o'. rewrite casebody_ok. apply (ends_push g v (Progn body)). exact Ub. }
    rewrite ends_if. destruct h as [|w|q]; destruct k as [l|]; cbn [matches] in M; try contradiction; cbn [casehead choose].
    + rewrite (seq_normal _ T ((g, v) :: e) s) by (intros; apply ends_const). cbn [V_eqb]. apply B.
    + subst l. rewrite (seq_normal _ (truth (V_eqb v w)) ((g, v) :: e) s) by
        (intros; rewrite ends_eq_const, read_new by exact G; reflexivity).
      cbn [existsb]. rewrite orb_false_r. destruct (V_eqb v w); cbn [truth V_eqb]; [apply B|].
      apply IH. intros c C. apply U. right. exact C.
    + destruct (M v (gl L s) (wd L s)) as (r & C & R).
      rewrite (seq_normal _ r ((g, v) :: e) s) by
        (intros; rewrite ends_call2_const, read_new, C, state_eta by exact G; reflexivity).
      destruct (existsb (V_eqb v) l).
      * assert (X : V_eqb r NIL = false).
        { destruct (V_eqb r NIL) eqn:X; [|reflexivity]. apply V_nil in X. apply R in X. discriminate. }
        rewrite X. apply B.
      * assert (X : V_eqb r NIL = true) by (apply V_nil; apply R; reflexivity). rewrite X.
        apply IH. intros c C'. apply U. right. exact C'.
Qed.

Theorem case_ok : forall memq g key clauses keys e s o, special L g = false ->
  Forall2 (fun c k => matches memq (fst c) (fst k) /\ snd c = snd k) clauses keys ->
  (forall c, In c clauses -> forallb (unmentioned g) (snd c) = true) ->
  (ends (m_case memq g key clauses) e s o <-> case_spec L key keys e s o).
Proof.
  intros memq g key clauses keys e s o G H U. unfold m_case, case_spec. rewrite ends_let, with_one by exact G.
  apply seq_ext; [reflexivity|]. intros v e1 s1 _. apply with_same; [exact G|]. intros r.
  rewrite ends_progn_one. apply case1_ok; assumption.
Qed.

(** ** psetq *)

Lemma write_app : forall x v B e s, ~ In x (map fst B) ->
  write L x v (B ++ e) s = (B ++ fst (write L x v e s), snd (write L x v e s)).
Proof.
  intros x v B e s H. induction B as [|[g u] B IH]; [cbn [app]; destruct (write L x v e s); reflexivity|].
  cbn [app]. rewrite write_other by (intros ->; apply H; left; reflexivity).
  rewrite IH by (intros X; apply H; right; exact X). reflexivity.
Qed.

Lemma read_app : forall g v B e s, special L g = false -> NoDup (map fst B) -> In (g, v) B -> read L g (B ++ e) s = v.
Proof.
  intros g v B e s G N H. unfold read. rewrite G.
  replace (assoc g (B ++ e)) with (Some v); [reflexivity|]. symmetry.
  induction B as [|[h u] B IH]; [contradiction|]. cbn [app assoc map fst] in *. inversion N; subst.
  destruct H as [H|H].
  - inversion H; subst. rewrite Nat.eqb_refl. reflexivity.
  - replace (Nat.eqb h g) with false; [apply IH; assumption|]. symmetry. apply Nat.eqb_neq. intros ->.
    apply H2. apply (in_map fst) in H. exact H.
Qed.

Lemma setq_vars : forall n xs gs vs B e s, length xs = length gs -> length gs = length vs ->
  NoDup (map fst B) -> (forall g v, In (g, v) (combine gs vs) -> In (g, v) B) ->
  (forall g, In g gs -> special L g = false) -> (forall x, In x xs -> ~ In x (map fst B)) ->
  exists v, ev_setq L (eval L (S n)) (combine xs (map Var gs)) (B ++ e) s =
    Some (Normal v (B ++ fst (assign_all L (combine xs vs) e s)) (snd (assign_all L (combine xs vs) e s))).
Proof.
  intros n xs. induction xs as [|x xs IH]; intros [|g gs] [|v vs] B e s E1 E2 N H G X; try discriminate.
  - exists NIL. reflexivity.
  - cbn [combine map ev_setq]. cbn [eval obind].
    rewrite (read_app g v) by (try apply G; try apply H; try exact N; left; reflexivity).
    rewrite write_app by (apply X; left; reflexivity). cbn [fst snd assign_all].
    destruct (IH gs vs B (fst (write L x v e s)) (snd (write L x v e s))) as (v' & E); try (cbn in *; lia); try exact N.
    + intros g' u I'. apply H. right. exact I'.
    + intros g' I'. apply G. right. exact I'.
    + intros y I'. apply X. right. exact I'.
    + destruct (combine xs (map Var gs)) as [|q r] eqn:C.
      * cbn [ev_setq] in E. inversion E; subst. exists v.
        destruct xs; [|destruct gs; [discriminate|discriminate C]].
        destruct vs; [|destruct gs; discriminate]. reflexivity.
      * exists v'. exact E.
Qed.

Lemma args_length : forall n l e s vs e1 s1, ev_args L (eval L n) l e s = Some (Normal vs e1 s1) -> length vs = length l.
Proof.
  intros n l. induction l as [|a l IH]; intros e s vs e1 s1 H; cbn [ev_args] in H; [inversion H; reflexivity|].
  destruct (eval L n a e s) as [[v e2 s2|b v e2 s2|t e2 s2|]|]; cbn [obind] in H; try discriminate.
  destruct (ev_args L (eval L n) l e2 s2) as [[us e3 s3|b u e3 s3|t e3 s3|]|] eqn:E; cbn [obind] in H; try discriminate.
  inversion H; subst. cbn [length]. f_equal. eapply IH. exact E.
Qed.

Lemma skipn_tl : forall A k (l : list A), tl (skipn k l) = skipn (S k) l.
Proof. intros A k. induction k as [|k IH]; intros [|a l]; try reflexivity. cbn [skipn]. rewrite IH. reflexivity. Qed.

Definition drop (k : nat) (o : out V) : out V :=
  match o with
  | Normal a e s => Normal a (skipn k e) s
  | Exit b v e s => Exit b v (skipn k e) s
  | Jump t e s => Jump t (skipn k e) s
  | Err => Err
  end.

Lemma star_args : forall gs vals K e s o, length gs = length vals -> (forall g, In g gs -> special L g = false) ->
  (forall g a, In g gs -> In a vals -> unmentioned g a = true) ->
  (with_vars_star L (combine gs vals) K e s o <->
   seq L (ends_args vals e s) (fun vs e s o => exists r, K (rev (combine gs vs) ++ e) s r /\ o = drop (length gs) r) o).
Proof.
  induction gs as [|g gs IH]; intros [|a vals] K e s o E G U; try discriminate.
  - cbn [combine with_vars_star]. split.
    + intros H. exists (Normal [] e s). split; [apply args_nil; reflexivity|]. exists o. split; [exact H|].
      destruct o; reflexivity.
    + intros (r & A & B). apply args_nil in A. subst r. destruct B as (r & A & ->). cbn in A. destruct r; exact A.
  - cbn [combine with_vars_star].
    rewrite (seq_ext _ _ _ _ _ _ _ (args_cons a vals e s) (fun _ _ _ _ => iff_refl _)). rewrite seq_seq.
    apply seq_ext; [reflexivity|]. intros v e1 s1 _. rewrite seq_seq. unfold with_var.
    rewrite (G g) by (left; reflexivity).
    assert (Uv : forallb (unmentioned g) vals = true).
    { apply forallb_forall. intros b B. apply U; [left; reflexivity|right; exact B]. }
    assert (IH' : forall r, with_vars_star L (combine gs vals) K ((g, v) :: e1) s1 r <-> _) by
      (intros r; apply (IH vals K ((g, v) :: e1) s1 r); [cbn in E; lia| |];
       [intros g' I'; apply G; right; exact I'|intros g' b I' J; apply U; right; assumption]).
    split.
    + intros (r & A & B). apply IH' in A. destruct A as (q & A & C). apply args_push in A; [|exact Uv].
      destruct A as (q' & A & ->). exists q'. split; [exact A|]. destruct q' as [vs e2 s2|b w e2 s2|t e2 s2|]; cbn [push] in C.
      * apply seq_eq. destruct C as (r' & C & ->). exists r'. cbn [combine rev]. rewrite <- app_assoc. split; [exact C|].
        destruct r'; cbn [drop leave] in *; rewrite ?state_eta, ?skipn_tl in B; inversion B; reflexivity.
      * subst r. cbn in B. rewrite state_eta in B. inversion B; reflexivity.
      * subst r. cbn in B. rewrite state_eta in B. inversion B; reflexivity.
      * subst r. cbn in B. inversion B; reflexivity.
    + intros (q & A & C). destruct q as [vs e2 s2|b w e2 s2|t e2 s2|].
      * apply seq_eq in C. destruct C as (r' & C & ->). cbn [combine rev] in C. rewrite <- app_assoc in C.
        exists (drop (length gs) r'). split.
        -- apply IH'. exists (Normal vs ((g, v) :: e2) s2). split.
           ++ apply args_push; [exact Uv|]. exists (Normal vs e2 s2). auto.
           ++ exists r'. auto.
        -- destruct r'; cbn [drop leave length]; rewrite ?state_eta, ?skipn_tl; reflexivity.
      * subst o. exists (Exit b w ((g, v) :: e2) s2). split; [|cbn; rewrite state_eta; reflexivity].
        apply IH'. exists (Exit b w ((g, v) :: e2) s2). split; [|reflexivity].
        apply args_push; [exact Uv|]. exists (Exit b w e2 s2). auto.
      * subst o. exists (Jump t ((g, v) :: e2) s2). split; [|cbn; rewrite state_eta; reflexivity].
        apply IH'. exists (Jump t ((g, v) :: e2) s2). split; [|reflexivity].
        apply args_push; [exact Uv|]. exists (Jump t e2 s2). auto.
      * subst o. exists Err. split; [|reflexivity]. apply IH'. exists Err. split; [|reflexivity].
        apply args_push; [exact Uv|]. exists Err. auto.
Qed.

(** new variables for the values of [l] *)
Definition fresh (gs : list nat) (l : list (nat * exp)) : Prop :=
  NoDup gs /\ length gs = length l /\ (forall g, In g gs -> special L g = false) /\
  (forall g p, In g gs -> In p l -> fst p <> g /\ unmentioned g (snd p) = true).

Lemma map_fst_combine : forall A B (a : list A) (b : list B), length a = length b -> map fst (combine a b) = a.
Proof. induction a as [|x a IH]; intros [|y b] H; try discriminate; [reflexivity|]. cbn. rewrite IH by (cbn in H; lia). reflexivity. Qed.

Lemma skipn_app_all : forall A (a b : list A) k, length a = k -> skipn k (a ++ b) = b.
Proof. intros A a b k <-. induction a; [reflexivity|assumption]. Qed.

Theorem psetq_ok : forall gs l e s o, fresh gs l -> (ends (m_psetq gs l) e s o <-> psetq_spec L l e s o).
Proof.
  intros gs l e s o (N & E & G & U). unfold m_psetq, psetq_spec. rewrite ends_letstar. rewrite star_args.
  - apply seq_ext; [reflexivity|]. intros vs e1 s1 (n & A). apply args_length in A. rewrite map_length in A.
    set (B := rev (combine gs vs)).
    assert (NB : NoDup (map fst B)).
    { unfold B. rewrite map_rev, map_fst_combine by lia. apply NoDup_rev. exact N. }
    set (es := assign_all L (combine (map fst l) vs) e1 s1).
    assert (R : ends_progn [Setq (combine (map fst l) (map Var gs)); Const NIL] (B ++ e1) s1
                  (Normal NIL (B ++ fst es) (snd es))).
    { destruct (setq_vars 1 (map fst l) gs vs B e1 s1) as (v & X).
      - rewrite map_length. lia.
      - lia.
      - exact NB.
      - intros g u I'. unfold B. apply in_rev in I'. exact I'.
      - exact G.
      - intros x X I'. unfold B in I'. rewrite map_rev, map_fst_combine in I' by lia. apply in_rev in I'.
        apply in_map_iff in X as (p & <- & P). destruct (U _ p I' P) as [W _]. apply W. reflexivity.
      - exists 4. cbn [eval ev_progn]. fold es in X.
        change (ev_setq L _ (combine (map fst l) (map Var gs)) (B ++ e1) s1) with
          (ev_setq L (eval L 2) (combine (map fst l) (map Var gs)) (B ++ e1) s1). rewrite X. reflexivity. }
    split.
    + intros (r & C & ->). rewrite (ends_det _ _ _ _ _ C R). cbn [drop]. rewrite skipn_app_all; [reflexivity|].
      unfold B. rewrite rev_length, combine_length. lia.
    + intros ->. eexists. split; [exact R|]. cbn [drop]. rewrite skipn_app_all; [reflexivity|].
      unfold B. rewrite rev_length, combine_length. lia.
  - rewrite map_length. exact E.
  - exact G.
  - intros g a I' J. apply in_map_iff in J as (p & <- & P). apply (U g p I' P).
Qed.

(** ** Loops *)

Inductive wloop (c : exp) (l : list exp) : env -> state -> out V -> Prop :=
| w_test_exit : forall e s o, ends c e s o -> abrupt L o -> wloop c l e s o
| w_end : forall e s e1 s1, ends c e s (Normal NIL e1 s1) -> wloop c l e s (Normal NIL e1 s1)
| w_body_exit : forall e s v e1 s1 o, ends c e s (Normal v e1 s1) -> v <> NIL -> ends_progn l e1 s1 o -> abrupt L o -> wloop c l e s o
| w_turn : forall e s v e1 s1 v' e2 s2 o, ends c e s (Normal v e1 s1) -> v <> NIL -> ends_progn l e1 s1 (Normal v' e2 s2) ->
    wloop c l e2 s2 o -> wloop c l e s o.

Lemma catch_twice : forall r o, catch_block L 0 (Some r) = Some o -> catch_block L 0 (Some o) = Some o.
Proof.
  intros [a e s|b v e s|t e s|] o H; cbn in H; inversion H; subst; try reflexivity.
  destruct (Nat.eqb b 0) eqn:B; inversion H1; subst; cbn; [reflexivity|rewrite B; reflexivity].
Qed.

Lemma V_nil_false : forall v, v <> NIL -> V_eqb v NIL = false.
Proof. intros v H. destruct (V_eqb v NIL) eqn:E; [|reflexivity]. apply V_nil in E. contradiction. Qed.

Lemma while_ok : forall c l e s o, ends (While c l) e s o <-> block_nil L (wloop c l e s) o.
Proof.
  intros c l e s o. split.
  - intros (n & E). revert e s o E. induction n as [|n IH]; intros e s o E; [discriminate|]. cbn [eval] in E.
    destruct (eval L n c e s) as [[v e1 s1|b v e1 s1|t e1 s1|]|] eqn:C; cbn [obind] in E; [| | | |discriminate].
    2: { eexists. split; [apply w_test_exit; [exists n; exact C|exact I]|exact E]. }
    2: { eexists. split; [apply w_test_exit; [exists n; exact C|exact I]|exact E]. }
    2: { eexists. split; [apply w_test_exit; [exists n; exact C|exact I]|exact E]. }
    destruct (V_eqb v NIL) eqn:V.
    + apply V_nil in V. subst v. eexists. split; [apply w_end; exists n; exact C|exact E].
    + assert (NV : v <> NIL) by (intros ->; discriminate).
      assert (PN : forall r, ev_progn L (eval L n) l e1 s1 = Some r -> ends_progn l e1 s1 r) by
        (intros r X; apply ends_progn_some; exists n; exact X).
      destruct (ev_progn L (eval L n) l e1 s1) as [[v2 e2 s2|b w e2 s2|t e2 s2|]|] eqn:P; cbn [obind] in E; [| | | |discriminate].
      2: { eexists. split; [eapply w_body_exit; [exists n; exact C|exact NV|apply PN; reflexivity|exact I]|exact E]. }
      2: { eexists. split; [eapply w_body_exit; [exists n; exact C|exact NV|apply PN; reflexivity|exact I]|exact E]. }
      2: { eexists. split; [eapply w_body_exit; [exists n; exact C|exact NV|apply PN; reflexivity|exact I]|exact E]. }
      destruct (eval L n (While c l) e2 s2) as [r|] eqn:W; [|discriminate].
      apply IH in W. destruct W as (r' & W & CT). exists r'. split.
      * eapply w_turn; [exists n; exact C|exact NV|apply PN; reflexivity|exact W].
      * rewrite (catch_twice _ _ CT) in E. inversion E; subst. exact CT.
  - intros (r & W & CT). revert o CT. induction W as [e s o (n & C) A|e s e1 s1 (n & C)|e s v e1 s1 o (n & C) NV P A|e s v e1 s1 v' e2 s2 o (n & C) NV P W IH]; intros o' CT.
    + exists (S n). cbn [eval]. rewrite C. destruct o; [contradiction|exact CT..].
    + exists (S n). cbn [eval]. rewrite C. exact CT.
    + apply ends_progn_some in P. destruct P as (m & P).
      exists (S (max n m)). cbn [eval]. rewrite (eval_more L n _ _ _ _ _ (Nat.le_max_l n m) C). cbn [obind].
      rewrite V_nil_false by exact NV. rewrite (progn_more L m _ _ _ _ _ (Nat.le_max_r n m) P).
      destruct o; [contradiction|exact CT..].
    + apply ends_progn_some in P. destruct P as (m & P). destruct (IH o' CT) as (k & W').
      exists (S (max n (max m k))). cbn [eval]. rewrite (eval_more L n (max n (max m k)) _ _ _ _ ltac:(lia) C). cbn [obind].
      rewrite V_nil_false by exact NV. rewrite (progn_more L m (max n (max m k)) _ _ _ _ ltac:(lia) P). cbn [obind].
      rewrite (eval_more L k (max n (max m k)) _ _ _ _ ltac:(lia) W'). eapply catch_twice. exact CT.
Qed.

Lemma push_abrupt : forall b (o : out V), abrupt L (push b o) <-> abrupt L o. Proof. intros b []; reflexivity. Qed.

(** ** dolist *)

Lemma pop_ok : forall g2 g u e s, special L g = false -> special L g2 = false -> g2 <> g ->
  ends (m_pop g2 g) ((g, u) :: e) s
    (if islist L u (wd L s) then Normal (car L u (wd L s)) ((g, cdr L u (wd L s)) :: e) s else Err).
Proof.
  intros g2 g u e s G G2 N. apply prog1_ok; [exact G2| |].
  { cbn [forallb unmentioned fst snd]. replace (Nat.eqb g g2) with false by (symmetry; apply Nat.eqb_neq; congruence). reflexivity. }
  exists (if islist L u (wd L s) then Normal (car L u (wd L s)) ((g, u) :: e) s else Err). split.
  { apply ends_car_var. rewrite read_new by exact G. reflexivity. }
  destruct (islist L u (wd L s)) eqn:E; [|reflexivity].
  exists (Normal (cdr L u (wd L s)) ((g, cdr L u (wd L s)) :: e) s). split; [|reflexivity].
  apply ends_progn_one, ends_setq_one. exists (Normal (cdr L u (wd L s)) ((g, u) :: e) s). split.
  - apply ends_cdr_var. rewrite read_new by exact G. rewrite E. reflexivity.
  - rewrite write_new by exact G. reflexivity.
Qed.

Lemma head_ok : forall g2 g x u e s, special L g = false -> special L g2 = false -> g2 <> g -> x <> g ->
  let es := write L x (car L u (wd L s)) e s in
  ends (Setq [(x, m_pop g2 g)]) ((g, u) :: e) s
    (if islist L u (wd L s) then Normal (car L u (wd L s)) ((g, cdr L u (wd L s)) :: fst es) (snd es) else Err).
Proof.
  intros g2 g x u e s G G2 N X es. apply ends_setq_one. eexists. split; [apply (pop_ok g2 g u e s G G2 N)|].
  destruct (islist L u (wd L s)); [|reflexivity]. rewrite write_other by exact X. reflexivity.
Qed.

Lemma ends_progn_head : forall a l e s o, ends_progn (a :: l) e s o ->
  exists r, ends a e s r /\ match r with Normal v e1 s1 => (l = [] /\ o = r) \/ ends_progn l e1 s1 o | _ => o = r end.
Proof.
  intros a [|b l] e s o H.
  - rewrite ends_progn_one in H. exists o. split; [exact H|]. destruct o; auto.
  - apply ends_progn_cons in H. destruct H as (r & A & B). exists r. split; [exact A|]. destruct r; auto.
Qed.

(** the head of the body, then the body; the value only matters when there is a body *)
Lemma dolist_turn : forall g2 g x u forms e s, special L g = false -> special L g2 = false -> g2 <> g -> x <> g ->
  forallb (unmentioned g) forms = true -> islist L u (wd L s) = true ->
  let es := write L x (car L u (wd L s)) e s in
  forall o, ends_progn (Setq [(x, m_pop g2 g)] :: forms) ((g, u) :: e) s o <->
    exists r v, ends_progn forms (fst es) (snd es) r /\
      o = push (g, cdr L u (wd L s)) (match r with Normal w e1 s1 => Normal (match forms with [] => v | _ => w end) e1 s1 | _ => r end) /\
      v = car L u (wd L s).
Proof.
  intros g2 g x u forms e s G G2 N X U IL es o. pose proof (head_ok g2 g x u e s G G2 N X) as H. rewrite IL in H. cbv zeta in H. fold es in H.
  destruct forms as [|b forms].
  - rewrite ends_progn_one, (ends_is _ _ _ _ _ H). split.
    + intros ->. exists (Normal NIL (fst es) (snd es)), (car L u (wd L s)). split; [apply ends_progn_nil; reflexivity|auto].
    + intros (r & v & A & -> & ->). apply ends_progn_nil in A. subst r. reflexivity.
  - rewrite ends_progn_cons. rewrite (seq_normal _ _ _ _ _ _ _ (fun r => ends_is _ _ _ _ r H)).
    unfold ends_progn. rewrite (ends_push g _ (Progn (b :: forms)) _ _ _ U). split.
    + intros (r & A & ->). exists r, (car L u (wd L s)). split; [exact A|]. split; [destruct r; reflexivity|reflexivity].
    + intros (r & v & A & -> & ->). exists r. split; [exact A|]. destruct r; reflexivity.
Qed.

Lemma dolist_loop : forall g2 g x forms, special L g = false -> special L g2 = false -> g2 <> g -> x <> g ->
  forallb (unmentioned g) forms = true ->
  (forall E s o, wloop (Var g) (Setq [(x, m_pop g2 g)] :: forms) E s o -> forall u e, E = (g, u) :: e ->
     exists r u', each L x forms u e s r /\ o = push (g, u') r) /\
  (forall u e s r, each L x forms u e s r -> exists u', wloop (Var g) (Setq [(x, m_pop g2 g)] :: forms) ((g, u) :: e) s (push (g, u') r)).
Proof.
  intros g2 g x forms G G2 N X U.
  assert (RV : forall u e s o, ends (Var g) ((g, u) :: e) s o <-> o = Normal u ((g, u) :: e) s).
  { intros. rewrite ends_var, read_new by exact G. reflexivity. }
  split.
  - intros E s o W. induction W as [E s o C A|E s e1 s1 C|E s v e1 s1 o C NV P A|E s v e1 s1 v' e2 s2 o C NV P W IH]; intros u e ->.
    + apply RV in C. subst o. contradiction.
    + apply RV in C. inversion C; subst. exists (Normal NIL e s), NIL. split; [apply each_end|reflexivity].
    + apply RV in C. inversion C; subst. destruct (islist L u (wd L s)) eqn:IL.
      * apply dolist_turn in P; try assumption. destruct P as (r & v & P & -> & ->).
        apply push_abrupt in A. exists r, (cdr L u (wd L s)). destruct r; [contradiction| | |];
        (split; [apply each_exit; try assumption; exact I|reflexivity]).
      * apply ends_progn_head in P. destruct P as (r & P & Q).
        pose proof (head_ok g2 g x u e s G G2 N X) as H. rewrite IL in H. cbv zeta in H.
        rewrite (ends_det _ _ _ _ _ P H) in Q. subst o. exists Err, u. split; [apply each_bad; assumption|reflexivity].
    + apply RV in C. inversion C; subst. destruct (islist L u (wd L s)) eqn:IL.
      * apply dolist_turn in P; try assumption. destruct P as (r & v & P & Q & ->).
        destruct r as [w f t|b w f t|b f t|]; cbn [push] in Q; inversion Q; subst.
        destruct (IH _ _ eq_refl) as (r & u' & Z & ->). exists r, u'. split; [|reflexivity].
        eapply each_turn; eassumption.
      * apply ends_progn_head in P. destruct P as (r & P & Q).
        pose proof (head_ok g2 g x u e s G G2 N X) as H. rewrite IL in H. cbv zeta in H.
        rewrite (ends_det _ _ _ _ _ P H) in Q. discriminate.
  - intros u e s r H. induction H as [e s|l e s NV IL|l e s o NV IL P A|l e s v e1 s1 o NV IL P H IH].
    + exists NIL. apply w_end. apply RV. reflexivity.
    + exists l. cbn [push]. eapply w_body_exit; [apply RV; reflexivity|exact NV| |exact I].
      pose proof (head_ok g2 g x l e s G G2 N X) as H. rewrite IL in H. cbv zeta in H. destruct forms as [|b forms].
      * apply ends_progn_one. exact H.
      * apply ends_progn_cons. exists Err. split; [exact H|reflexivity].
    + exists (cdr L l (wd L s)). eapply w_body_exit; [apply RV; reflexivity|exact NV| |apply push_abrupt; exact A].
      apply dolist_turn; try assumption. exists o, (car L l (wd L s)). split; [exact P|]. split; [|reflexivity].
      destruct o; [contradiction|reflexivity..].
    + destruct IH as (u' & IH). exists u'. eapply w_turn; [apply RV; reflexivity|exact NV| |exact IH].
      apply dolist_turn; try assumption. exists (Normal v e1 s1), (car L l (wd L s)). split; [exact P|]. split; reflexivity.
Qed.

(** what dolist does, whether or not there is a return in it *)
Definition dolist_does (x : nat) (l result : exp) (forms : list exp) (e : env) (s : state) : out V -> Prop :=
  seq L (ends l e s) (fun v e s => with_var L x NIL (fun e s =>
    seq L (block_nil L (each L x forms v e s)) (fun _ e s => ends result e s)) e s).

Lemma with_ext : forall x v (K K' : env -> state -> out V -> Prop) e s o,
  (forall e s r, K e s r <-> K' e s r) -> (with_var L x v K e s o <-> with_var L x v K' e s o).
Proof. intros x v K K' e s o H. unfold with_var. destruct (special L x); split; intros (r & A & B); exists r; (split; [apply H; exact A|exact B]). Qed.

Lemma push_catch : forall b (r o : out V), catch_block L 0 (Some r) = Some o -> catch_block L 0 (Some (push b r)) = Some (push b o).
Proof.
  intros b [a e s|n v e s|t e s|] o H; cbn in *; try (inversion H; subst; reflexivity).
  destruct (Nat.eqb n 0); inversion H; subst; reflexivity.
Qed.

Theorem dolist_exact : forall g2 g x l result forms e s o, special L g = false -> special L g2 = false -> g2 <> g -> x <> g ->
  forallb (unmentioned g) forms = true -> unmentioned g result = true ->
  (ends (m_dolist g g2 x l result forms) e s o <-> dolist_does x l result forms e s o).
Proof.
  intros g2 g x l result forms e s o G G2 N X U UR. unfold m_dolist, dolist_does. rewrite ends_let, with_two by exact G.
  apply seq_ext; [reflexivity|]. intros v e1 s1 _. apply with_ext. intros e2 s2 r.
  destruct (dolist_loop g2 g x forms G G2 N X U) as [LA LB].
  apply with_new; [exact G| |].
  - intros q Q. apply ends_progn_cons in Q. rewrite (seq_normal _ NIL _ _ _ _ _ (fun r => ends_const NIL _ _ r)) in Q.
    apply ends_progn_cons in Q. destruct Q as (w & W & Q). apply while_ok in W. destruct W as (w' & W & C).
    destruct (LA _ _ _ W v e2 eq_refl) as (z & u' & Z & ->).
    destruct z as [a f t|b a f t|b f t|]; cbn [push] in C.
    + inversion C; subst. rewrite ends_progn_one, ends_push in Q by exact UR. destruct Q as (q' & Q & ->).
      exists q', u'. split; [|reflexivity]. exists (Normal a f t). split; [exists (Normal a f t); auto|exact Q].
    + cbn in C. destruct (Nat.eqb b 0) eqn:B; inversion C; subst.
      * rewrite ends_progn_one, ends_push in Q by exact UR. destruct Q as (q' & Q & ->).
        exists q', u'. split; [|reflexivity]. exists (Normal a f t). split; [|exact Q].
        exists (Exit b a f t). split; [exact Z|]. cbn. rewrite B. reflexivity.
      * exists (Exit b a f t), u'. split; [|exact Q]. exists (Exit b a f t). split; [|reflexivity].
        exists (Exit b a f t). split; [exact Z|]. cbn. rewrite B. reflexivity.
    + inversion C; subst. exists (Jump b f t), u'. split; [|exact Q]. exists (Jump b f t). split; [|reflexivity].
      exists (Jump b f t). auto.
    + inversion C; subst. exists Err, u'. split; [|exact Q]. exists Err. split; [|reflexivity]. exists Err. auto.
  - intros q (w & (z & Z & C) & Q). destruct (LB _ _ _ _ Z) as (u' & W). exists u'.
    apply ends_progn_cons. rewrite (seq_normal _ NIL _ _ _ _ _ (fun r => ends_const NIL _ _ r)).
    apply ends_progn_cons. exists (push (g, u') w). split.
    + apply while_ok. exists (push (g, u') z). split; [exact W|]. apply push_catch. exact C.
    + destruct w as [a f t|b a f t|b f t|]; cbn [push]; try (subst q; reflexivity).
      apply ends_progn_one, ends_push; [exact UR|]. exists q. auto.
Qed.

(** ** Nothing but names of the text *)

Definition all (_ : nat) : bool := true.
Definition but (k : nat) (n : nat) : bool := negb (Nat.eqb n k).

(** no return from a block named NIL; no go to the tag; no assignment to the variable *)
Definition no_return : exp -> bool := every (allowed all (but 0) all).
Definition no_go (t : nat) : exp -> bool := every (allowed (but t) all all).
Definition no_setq (v : nat) : exp -> bool := every (allowed all all (but v)).

Lemma ends_fine : forall pgo pret pset x e s o, every (allowed pgo pret pset) x = true -> ends x e s o ->
  fine L pgo pret pset e (Some o).
Proof. intros pgo pret pset x e s o H (n & E). rewrite <- E. apply eval_fine. exact H. Qed.

Lemma progn_every : forall P l, P (Progn l) = true -> forallb (every P) l = true -> every P (Progn l) = true.
Proof. intros P l H1 H2. cbn [every]. rewrite H1, H2. reflexivity. Qed.

Lemma not_exit : forall l e s v e1 s1, forallb no_return l = true -> ~ ends_progn l e s (Exit 0 v e1 s1).
Proof.
  intros l e s v e1 s1 H E. eapply ends_fine in E; [|apply progn_every; [reflexivity|exact H]].
  destruct E as [_ E]. discriminate.
Qed.
Lemma not_exit1 : forall x e s v e1 s1, no_return x = true -> ~ ends x e s (Exit 0 v e1 s1).
Proof. intros x e s v e1 s1 H E. eapply ends_fine in E; [|exact H]. destruct E as [_ E]. discriminate. Qed.

Lemma each_no_return : forall x forms u e s r, forallb no_return forms = true -> each L x forms u e s r ->
  forall v e1 s1, r <> Exit 0 v e1 s1.
Proof.
  intros x forms u e s r H E. induction E; intros w f t X; try discriminate.
  - subst o. eapply not_exit; eassumption.
  - eapply IHE. exact X.
Qed.

Definition quiet (P : out V -> Prop) : Prop := forall v e s, ~ P (Exit 0 v e s).
Lemma block_quiet : forall P o, quiet P -> (block_nil L P o <-> P o).
Proof.
  intros P o Q. split.
  - intros ([a e s|b v e s|t e s|] & A & B); cbn in B; try (inversion B; subst; exact A).
    destruct (Nat.eqb b 0) eqn:Z; [|inversion B; subst; exact A].
    apply Nat.eqb_eq in Z. subst b. exfalso. exact (Q _ _ _ A).
  - intros H. exists o. split; [exact H|]. destruct o as [a e s|b v e s|t e s|]; cbn; try reflexivity.
    destruct (Nat.eqb b 0) eqn:Z; [|reflexivity]. apply Nat.eqb_eq in Z. subst b. exfalso. exact (Q _ _ _ H).
Qed.

Lemma quiet_seq : forall (P : out V -> Prop) (K : V -> env -> state -> out V -> Prop), quiet P -> (forall a e s, quiet (K a e s)) -> quiet (seq L P K).
Proof.
  intros P K HP HK v e s ([a e1 s1|b w e1 s1|t e1 s1|] & A & B); try discriminate.
  - exact (HK _ _ _ _ _ _ B).
  - inversion B; subst. exact (HP _ _ _ A).
Qed.
Lemma quiet_with : forall x v K, (forall e s, quiet (K e s)) -> forall e s, quiet (with_var L x v K e s).
Proof.
  intros x v K H e s w e1 s1 A. unfold with_var in A.
  destruct (special L x); destruct A as ([a f t|b u f t|b f t|] & A & B); cbn in B; try discriminate; inversion B; subst; exact (H _ _ _ _ _ A).
Qed.

Theorem dolist_ok : forall g2 g x l result forms e s o, special L g = false -> special L g2 = false -> g2 <> g -> x <> g ->
  forallb (unmentioned g) forms = true -> unmentioned g result = true ->
  forallb no_return (l :: result :: forms) = true ->
  (ends (m_dolist g g2 x l result forms) e s o <-> block_nil L (dolist_spec L x l result forms e s) o).
Proof.
  intros g2 g x l result forms e s o G G2 N X U UR R. cbn [forallb] in R.
  apply andb_prop in R as [R1 R]. apply andb_prop in R as [R2 R3].
  rewrite block_quiet.
  - rewrite dolist_exact by assumption. unfold dolist_does, dolist_spec. apply seq_ext; [reflexivity|]. intros v e1 s1 _.
    apply with_ext. intros e2 s2 r. apply seq_ext; [|intros; reflexivity]. intros q. apply block_quiet.
    intros w f t E. eapply each_no_return; [exact R3|exact E|reflexivity].
  - apply quiet_seq.
    + intros w f t. apply not_exit1. exact R1.
    + intros v e1 s1. apply quiet_with. intros e2 s2. apply quiet_seq.
      * intros w f t E. eapply each_no_return; [exact R3|exact E|reflexivity].
      * intros _ e3 s3 w f t. apply not_exit1. exact R2.
Qed.

(** ** dotimes *)

Lemma ends_progn_snoc : forall l a e s o, ends_progn (l ++ [a]) e s o <-> seq L (ends_progn l e s) (fun _ e s => ends a e s) o.
Proof.
  induction l as [|b l IH]; intros a e s o.
  - cbn [app]. rewrite ends_progn_one. symmetry.
    apply (seq_normal _ NIL e s (fun _ e s => ends a e s)). intros r. apply ends_progn_nil.
  - destruct l as [|c l].
    + cbn [app]. rewrite ends_progn_cons. apply seq_ext; [intros r; symmetry; apply ends_progn_one|].
      intros v e1 s1 _. apply ends_progn_one.
    + change ((b :: c :: l) ++ [a]) with (b :: c :: (l ++ [a])). rewrite ends_progn_cons.
      rewrite (seq_ext _ _ _ _ _ _ _ (ends_progn_cons b c l e s) (fun _ _ _ _ => iff_refl _)). rewrite seq_seq.
      apply seq_ext; [reflexivity|]. intros v e1 s1 _. apply (IH a e1 s1 o).
Qed.

Lemma ends_call1_var : forall f x e s o,
  ends (Call f [Var x]) e s o <->
  o = match call L f [read L x e s] (gl L s) (wd L s) with Some (r, g, w) => Normal r e (mkState L g w) | None => Err end.
Proof.
  intros. split.
  - intros ([|[|n]] & E); [discriminate|discriminate|]. cbn in E. destruct (call L _ _ _ _) as [[[r g] w]|]; congruence.
  - intros ->. exists 2. cbn. destruct (call L _ _ _ _) as [[[r g] w]|]; reflexivity.
Qed.

Lemma leave_tl : forall r, leave L (@tl _) (fun g => g) (Some r) = Some (drop 1 r).
Proof.
  intros [a e s|b v e s|t e s|]; cbn [leave drop]; rewrite ?state_eta; try reflexivity; destruct e; reflexivity.
Qed.
Lemma drop_push : forall b (r : out V), drop 1 (push b r) = r. Proof. intros b []; reflexivity. Qed.

(** numbers, less-than and 1+ as they should be *)
Record counts (num : nat -> V) (less add1 : nat) : Prop := {
  c_less : forall i k g w, call L less [num i; num k] g w = Some (truth (i <? k), g, w);
  c_add1 : forall i g w, call L add1 [num i] g w = Some (num (S i), g, w) }.

Section Times.
Variable num : nat -> V.
Variables less add1 x g : nat.
Variable forms : list exp.
Hypothesis C : counts num less add1.
Hypothesis GX : special L x = false.
Hypothesis GG : special L g = false.
Hypothesis N : x <> g.
Hypothesis U : forallb (unmentioned g) forms = true.
Hypothesis Q : forallb (no_setq x) forms = true.

Lemma body_kept : forall v e s r, ends_progn forms ((x, v) :: e) s r -> exists r', r = push (x, v) r'.
Proof.
  intros v e s r E. eapply ends_fine in E; [|apply progn_every; [reflexivity|exact Q]].
  assert (K : forall e', kept (but x) ((x, v) :: e) e' -> exists e'', e' = (x, v) :: e'').
  { intros e' K. inversion K as [|a b l l' [H1 H2] H3]; subst. cbn [fst] in *. exists l'. f_equal. symmetry. apply H2.
    unfold but. rewrite Nat.eqb_refl. reflexivity. }
  destruct r as [a e' s'|b w e' s'|t e' s'|]; cbn [fine] in E.
  - destruct (K _ E) as (e'' & ->). exists (Normal a e'' s'). reflexivity.
  - destruct (K _ (proj1 E)) as (e'' & ->). exists (Exit b w e'' s'). reflexivity.
  - destruct (K _ (proj1 E)) as (e'' & ->). exists (Jump t e'' s'). reflexivity.
  - exists Err. reflexivity.
Qed.

Lemma body_turn : forall v n e s o, ends_progn forms ((g, n) :: (x, v) :: e) s o <->
  exists r, with_var L x v (ends_progn forms) e s r /\ o = push (g, n) (push (x, v) r).
Proof.
  intros v n e s o. unfold with_var, ends_progn. rewrite GX. rewrite (ends_push g n (Progn forms) _ _ _ U). split.
  - intros (r & A & ->). destruct (body_kept _ _ _ _ A) as (r' & ->). exists r'. split; [|reflexivity].
    exists (push (x, v) r'). split; [exact A|]. rewrite leave_tl, drop_push. reflexivity.
  - intros (r & (r0 & A & B) & ->). destruct (body_kept _ _ _ _ A) as (r' & ->). rewrite leave_tl, drop_push in B.
    inversion B; subst. exists (push (x, v) r). split; [exact A|reflexivity].
Qed.

Definition test := Call less [Var x; Var g].
Definition body := forms ++ [Setq [(x, Call add1 [Var x])]].

Lemma read_second : forall n v e s, read L x ((g, n) :: (x, v) :: e) s = v.
Proof.
  intros n v e s. unfold read. rewrite GX. cbn [assoc].
  replace (Nat.eqb g x) with false by (symmetry; apply Nat.eqb_neq; congruence). rewrite Nat.eqb_refl. reflexivity.
Qed.

Lemma test_ok : forall k i e s o, ends test ((g, num k) :: (x, num i) :: e) s o <->
  o = Normal (truth (i <? k)) ((g, num k) :: (x, num i) :: e) s.
Proof.
  intros k i e s o. unfold test. rewrite ends_call2_var, read_second, read_new by exact GG.
  rewrite (c_less _ _ _ C), state_eta. reflexivity.
Qed.

Lemma add_ok : forall k i e s o, ends (Setq [(x, Call add1 [Var x])]) ((g, num k) :: (x, num i) :: e) s o <->
  o = Normal (num (S i)) ((g, num k) :: (x, num (S i)) :: e) s.
Proof.
  intros k i e s o. rewrite ends_setq_one. rewrite (seq_normal _ (num (S i)) ((g, num k) :: (x, num i) :: e) s).
  - rewrite write_other by exact N. rewrite write_new by exact GX. reflexivity.
  - intros r. rewrite ends_call1_var, read_second, (c_add1 _ _ _ C), state_eta. reflexivity.
Qed.

Lemma times_loop :
  (forall E s o, wloop test body E s o -> forall k i e, E = (g, num k) :: (x, num i) :: e -> i <= k ->
     exists r j, times L num x forms i k e s r /\ o = push (g, num k) (push (x, num j) r) /\ (abrupt L r \/ j = k)) /\
  (forall i k e s r, times L num x forms i k e s r ->
     exists j, wloop test body ((g, num k) :: (x, num i) :: e) s (push (g, num k) (push (x, num j) r)) /\ (abrupt L r \/ j = k)).
Proof.
  split.
  - intros E s o W. induction W as [E s o T A|E s e1 s1 T|E s v e1 s1 o T NV P A|E s v e1 s1 v' e2 s2 o T NV P W IH]; intros k i e -> I'.
    + apply test_ok in T. subst o. contradiction.
    + apply test_ok in T. inversion T; subst. destruct (i <? k) eqn:LT; [discriminate|]. apply Nat.ltb_ge in LT.
      replace i with k by lia. exists (Normal NIL e s), k. split; [apply times_end|]. split; [reflexivity|right; reflexivity].
    + apply test_ok in T. inversion T; subst. destruct (i <? k) eqn:LT; [|contradiction]. apply Nat.ltb_lt in LT.
      apply ends_progn_snoc in P. destruct P as (r & P & K). apply body_turn in P. destruct P as (r' & P & ->).
      destruct r' as [a f t|b a f t|b f t|]; cbn [push] in K.
      * apply add_ok in K. subst o. contradiction.
      * subst o. exists (Exit b a f t), i. split; [apply times_exit; [exact LT|exact P|exact I]|]. split; [reflexivity|left; exact I].
      * subst o. exists (Jump b f t), i. split; [apply times_exit; [exact LT|exact P|exact I]|]. split; [reflexivity|left; exact I].
      * subst o. exists Err, i. split; [apply times_exit; [exact LT|exact P|exact I]|]. split; [reflexivity|left; exact I].
    + apply test_ok in T. inversion T; subst. destruct (i <? k) eqn:LT; [|contradiction]. apply Nat.ltb_lt in LT.
      apply ends_progn_snoc in P. destruct P as (r & P & K). apply body_turn in P. destruct P as (r' & P & ->).
      destruct r' as [a f t|b a f t|b f t|]; cbn [push] in K; try discriminate.
      apply add_ok in K. inversion K; subst. destruct (IH k (S i) f eq_refl LT) as (r & j & A & -> & B).
      exists r, j. split; [|split; [reflexivity|exact B]]. eapply times_turn; eassumption.
  - intros i k e s r H. induction H as [k e s|i k e s o LT P A|i k e s v e1 s1 o LT P H IH].
    + exists k. split; [|right; reflexivity]. apply w_end. apply test_ok. rewrite Nat.ltb_irrefl. reflexivity.
    + exists i. split; [|left; exact A]. eapply w_body_exit; [apply test_ok; reflexivity| | |apply push_abrupt, push_abrupt; exact A].
      * apply Nat.ltb_lt in LT. rewrite LT. discriminate.
      * apply ends_progn_snoc. exists (push (g, num k) (push (x, num i) o)). split.
        -- apply body_turn. exists o. auto.
        -- destruct o; [contradiction|reflexivity..].
    + destruct IH as (j & W & B). exists j. split; [|exact B]. eapply w_turn; [apply test_ok; reflexivity| | |exact W].
      * apply Nat.ltb_lt in LT. rewrite LT. discriminate.
      * apply ends_progn_snoc. exists (push (g, num k) (push (x, num i) (Normal v e1 s1))). split.
        -- apply body_turn. exists (Normal v e1 s1). auto.
        -- cbn [push]. apply add_ok. reflexivity.
Qed.

Hypothesis R : forallb no_return forms = true.

Lemma times_no_return : forall i k e s, quiet (times L num x forms i k e s).
Proof.
  intros i k e s v e1 s1 H. remember (Exit 0 v e1 s1) as r eqn:E. revert E.
  induction H as [k e s|i k e s o LT P A|i k e s w f t o LT P H IH]; intros E; [discriminate| |].
  - subst o. eapply quiet_with; [|exact P]. intros f t u f1 t1. apply not_exit. exact R.
  - apply IH. exact E.
Qed.

Lemma while_times :
  (forall i k e s o, i <= k -> ends (While test body) ((g, num k) :: (x, num i) :: e) s o ->
   exists r j, times L num x forms i k e s r /\ o = push (g, num k) (push (x, num j) r) /\ (abrupt L r \/ j = k)) /\
  (forall i k e s r, i <= k -> times L num x forms i k e s r ->
   exists j, ends (While test body) ((g, num k) :: (x, num i) :: e) s (push (g, num k) (push (x, num j) r)) /\ (abrupt L r \/ j = k)).
Proof.
  destruct times_loop as [LA LB].
  assert (QW : forall i k e s, i <= k -> quiet (wloop test body ((g, num k) :: (x, num i) :: e) s)).
  { intros i k e s I' v f t W. destruct (LA _ _ _ W k i e eq_refl I') as ([a e1 s1|b a e1 s1|b e1 s1|] & j & H & E & _);
      cbn [push] in E; try discriminate.
    inversion E; subst. exact (times_no_return _ _ _ _ _ _ _ H). }
  split.
  - intros i k e s o I' W. rewrite while_ok, block_quiet in W by (apply QW; exact I'). exact (LA _ _ _ W k i e eq_refl I').
  - intros i k e s r I' H. destruct (LB _ _ _ _ _ H) as (j & W & B). exists j. split; [|exact B].
    rewrite while_ok, block_quiet by (apply QW; exact I'). exact W.
Qed.

Theorem dotimes_ok : forall count result e s o,
  forallb no_return [count; result] = true -> unmentioned g result = true ->
  (forall v e1 s1, ends count e s (Normal v e1 s1) -> exists k, v = num k) ->
  (ends (m_dotimes (num 0) less add1 g x count result forms) e s o <->
   block_nil L (dotimes_spec L num x count result forms e s) o).
Proof.
  intros count result e s o RR UR NUM. cbn [forallb] in RR. apply andb_prop in RR as [R1 RR]. apply andb_prop in RR as [R2 _].
  destruct while_times as [WA WB].
  rewrite block_quiet.
  - unfold m_dotimes, dotimes_spec. fold test. fold body. rewrite ends_let, with_two by exact GG.
    apply seq_ext; [reflexivity|]. intros v e1 s1 EV.
    assert (X : forall k, with_var L x (num 0) (with_var L g (num k) (ends_progn [While test body; result])) e1 s1 o <->
                seq L (times L num x forms 0 k e1 s1) (fun _ e s => with_var L x (num k) (ends result) e s) o).
    { intros k. unfold with_var. rewrite GX, GG. split.
      - intros (r & (r0 & A & B) & D). rewrite leave_tl in B, D. inversion B; subst r. inversion D; subst o.
        apply ends_progn_cons in A. destruct A as (w & W & K). apply WA in W; [|lia].
        destruct W as (z & j & H & -> & J). exists z. split; [exact H|].
        destruct z as [a f t|b a f t|b f t|]; cbn [push] in K; try (subst r0; reflexivity).
        destruct J as [[]| ->]. rewrite ends_progn_one, ends_push in K by exact UR. destruct K as (q & K & ->).
        exists q. split; [exact K|]. rewrite leave_tl, drop_push. reflexivity.
      - intros (z & H & K). destruct (WB _ _ _ _ _ (Nat.le_0_l k) H) as (j & W & J).
        assert (Y : exists r0, ends_progn [While test body; result] ((g, num k) :: (x, num 0) :: e1) s1 r0 /\ o = drop 1 (drop 1 r0)).
        { destruct z as [a f t|b a f t|b f t|].
          - destruct J as [[]| ->]. destruct K as (q & K & D). rewrite leave_tl in D. inversion D; subst o.
            exists (push (g, num k) q). split; [|rewrite drop_push; reflexivity].
            apply ends_progn_cons. eexists. split; [exact W|]. cbn [push]. apply ends_progn_one, ends_push; [exact UR|].
            exists q. auto.
          - subst o. eexists. split; [apply ends_progn_cons; eexists; split; [exact W|reflexivity]|reflexivity].
          - subst o. eexists. split; [apply ends_progn_cons; eexists; split; [exact W|reflexivity]|reflexivity].
          - subst o. eexists. split; [apply ends_progn_cons; eexists; split; [exact W|reflexivity]|reflexivity]. }
        destruct Y as (r0 & A & ->). exists (drop 1 r0). split; [|apply leave_tl]. exists r0. split; [exact A|apply leave_tl]. }
    split.
    + intros H. destruct (NUM _ _ _ EV) as (k & ->). exists k. split; [reflexivity|]. apply X. exact H.
    + intros (k & -> & H). apply X. exact H.
  - apply quiet_seq; [intros w f t; apply not_exit1; exact R1|]. intros v e1 s1 w f t (k & _ & H). revert H.
    apply quiet_seq; [apply times_no_return|]. intros _ e2 s2. apply quiet_with. intros e3 s3 u f1 t1. apply not_exit1. exact R2.
Qed.
End Times.

(** ** loop, do, do-star *)

Section Tag.
Variable tag : nat.
Variable l : list exp.
Hypothesis NG : forallb (no_go tag) l = true.
Definition after : list (nat + exp) := map inr l ++ [inr (Go tag)].
Definition items : list (nat + exp) := inl tag :: after.

Lemma items_go : forall n e s, ev_items L (eval L (S n)) after e s =
  match ev_progn L (eval L (S n)) l e s with Some (Normal _ e s) => Some (Jump tag e s) | o => o end.
Proof.
  intros n. unfold after. clear NG. induction l as [|a [|b r] IH]; intros e s.
  - reflexivity.
  - cbn [map app ev_items ev_progn]. destruct (eval L (S n) a e s) as [[v f t|c v f t|c f t|]|]; reflexivity.
  - change (ev_progn L (eval L (S n)) (a :: b :: r) e s) with
      (obind L (eval L (S n) a e s) (fun _ e s => ev_progn L (eval L (S n)) (b :: r) e s)).
    change (ev_items L (eval L (S n)) (map inr (a :: b :: r) ++ [inr (Go tag)]) e s) with
      (obind L (eval L (S n) a e s) (fun _ e s => ev_items L (eval L (S n)) (map inr (b :: r) ++ [inr (Go tag)]) e s)).
    destruct (eval L (S n) a e s) as [[v f t|c v f t|c f t|]|]; try reflexivity. cbn [obind]. apply IH.
Qed.

Lemma items_0 : forall e s, ev_items L (eval L 0) after e s = None.
Proof. intros e s. unfold after. destruct l; reflexivity. Qed.

Lemma after_none : forall t, t <> tag -> after_tag t items = None.
Proof.
  intros t H. unfold items, after. cbn [after_tag]. replace (Nat.eqb tag t) with false by (symmetry; apply Nat.eqb_neq; congruence).
  clear NG. induction l as [|a r IH]; [reflexivity|exact IH].
Qed.
Lemma after_self : after_tag tag items = Some after.
Proof. unfold items. cbn [after_tag]. rewrite Nat.eqb_refl. reflexivity. Qed.

Lemma tagbody_after : forall n e s, tagbody L n items items e s = tagbody L n items after e s.
Proof. intros [|n] e s; [reflexivity|]. rewrite !tagbody_S. reflexivity. Qed.

Lemma eval_tag : forall n e s, eval L (S n) (Tagbody items) e s = tagbody L n items after e s.
Proof. intros n e s. rewrite <- tagbody_after. reflexivity. Qed.

Lemma tag_ok : forall e s o, ends (Tagbody items) e s o <-> forever L l e s o.
Proof.
  intros e s o. split.
  - intros ([|n] & E); [discriminate|]. rewrite eval_tag in E. revert e s o E.
    induction n as [|n IH]; intros e s o E; [discriminate|]. rewrite tagbody_S in E.
    destruct n as [|n]; [rewrite items_0 in E; discriminate|]. rewrite items_go in E.
    assert (P : forall r, ev_progn L (eval L (S n)) l e s = Some r -> ends_progn l e s r) by
      (intros r X; apply ends_progn_some; exists (S n); exact X).
    destruct (ev_progn L (eval L (S n)) l e s) as [[v e1 s1|b v e1 s1|t e1 s1|]|]; [| | | |discriminate].
    + rewrite after_self in E. eapply forever_turn; [apply P; reflexivity|]. apply IH. exact E.
    + inversion E; subst. apply forever_exit; [apply P; reflexivity|exact I].
    + assert (X : t <> tag).
      { pose proof (P _ eq_refl) as X. eapply ends_fine in X; [|apply progn_every; [reflexivity|exact NG]].
        destruct X as [_ X]. intros ->. unfold but in X. rewrite Nat.eqb_refl in X. discriminate. }
      rewrite after_none in E by exact X. inversion E; subst. apply forever_exit; [apply P; reflexivity|exact I].
    + inversion E; subst. apply forever_exit; [apply P; reflexivity|exact I].
  - intros H. induction H as [e s o P A|e s v e1 s1 o P H IH].
    + assert (X : forall t e1 s1, o = Jump t e1 s1 -> t <> tag).
      { intros t e1 s1 ->. eapply ends_fine in P; [|apply progn_every; [reflexivity|exact NG]].
        destruct P as [_ X]. intros ->. unfold but in X. rewrite Nat.eqb_refl in X. discriminate. }
      apply ends_progn_some in P. destruct P as (n & P). apply (progn_more L n (S n)) in P; [|lia].
      exists (S (S (S n))). rewrite eval_tag, tagbody_S, items_go, P.
      destruct o as [v e1 s1|b v e1 s1|t e1 s1|]; [contradiction|reflexivity| |reflexivity].
      rewrite after_none by (eapply X; reflexivity). reflexivity.
    + apply ends_progn_some in P. destruct P as (n & P). destruct IH as (m & E).
      exists (S (S (S (max n m)))). apply (progn_more L n (S (max n m))) in P; [|lia].
      apply (eval_more L m (S (S (max n m)))) in E; [|lia].
      rewrite eval_tag, tagbody_S, items_go, P, after_self. rewrite <- eval_tag. exact E.
Qed.
End Tag.

Theorem loop_ok : forall tag forms e s o, forallb (no_go tag) forms = true ->
  (ends (m_loop tag forms) e s o <-> loop_spec L forms e s o).
Proof.
  intros tag forms e s o H. unfold m_loop, loop_spec. rewrite ends_block. apply block_ext. intros r.
  rewrite ends_progn_one. apply tag_ok. exact H.
Qed.

(** the same but for what a block named NIL catches *)
Definition cat (o : out V) : out V := match o with Exit b v e s => if Nat.eqb b 0 then Normal v e s else o | _ => o end.
Lemma cat_block : forall r, catch_block L 0 (Some r) = Some (cat r).
Proof. intros [a e s|b v e s|t e s|]; try reflexivity. cbn. destruct (Nat.eqb b 0); reflexivity. Qed.

Definition same (P P' : out V -> Prop) : Prop :=
  (forall o, P o -> exists o', P' o' /\ cat o = cat o') /\ (forall o', P' o' -> exists o, P o /\ cat o = cat o').

Lemma same_block : forall P P' o, same P P' -> (block_nil L P o <-> block_nil L P' o).
Proof.
  intros P P' o [A B]. unfold block_nil. split; intros (r & H & E); rewrite cat_block in E.
  - destruct (A _ H) as (r' & H' & X). exists r'. split; [exact H'|]. rewrite cat_block. congruence.
  - destruct (B _ H) as (r' & H' & X). exists r'. split; [exact H'|]. rewrite cat_block. congruence.
Qed.

Lemma same_seq : forall A (P : out A -> Prop) (K K' : A -> env -> state -> out V -> Prop),
  (forall a e s, same (K a e s) (K' a e s)) -> same (seq L P K) (seq L P K').
Proof.
  intros A P K K' H. split; intros o (r & X & Y); destruct r as [a e s|b v e s|t e s|].
  - destruct (proj1 (H a e s) _ Y) as (o' & Z & E). exists o'. split; [exists (Normal a e s); auto|exact E].
  - exists o. split; [|reflexivity]. exists (Exit b v e s); auto.
  - exists o. split; [|reflexivity]. exists (Jump t e s); auto.
  - exists o. split; [|reflexivity]. exists Err; auto.
  - destruct (proj2 (H a e s) _ Y) as (o' & Z & E). exists o'. split; [exists (Normal a e s); auto|exact E].
  - exists o. split; [|reflexivity]. exists (Exit b v e s); auto.
  - exists o. split; [|reflexivity]. exists (Jump t e s); auto.
  - exists o. split; [|reflexivity]. exists Err; auto.
Qed.

Lemma same_leave : forall P P' fe fg, same P P' ->
  same (fun o => exists r, P r /\ leave L fe fg (Some r) = Some o) (fun o => exists r, P' r /\ leave L fe fg (Some r) = Some o).
Proof.
  assert (X : forall fe fg r r' o, cat r = cat r' -> leave L fe fg (Some r) = Some o ->
    exists o', leave L fe fg (Some r') = Some o' /\ cat o = cat o').
  { intros fe fg r r' o E H.
    destruct r as [a e s|b v e s|t e s|], r' as [a' e' s'|b' v' e' s'|t' e' s'|]; cbn in E, H;
      repeat match type of E with context [if ?c then _ else _] => destruct c eqn:? end; try discriminate;
      inversion E; subst; inversion H; subst; eexists; (split; [reflexivity|]); cbn;
      repeat match goal with Z : (?c =? 0) = _ |- context [?c =? 0] => rewrite Z end; reflexivity. }
  intros P P' fe fg [A B]. split.
  - intros o (r & H & E). destruct (A _ H) as (r' & H' & C). destruct (X _ _ _ _ _ C E) as (o' & E' & C').
    exists o'. split; [exists r'; auto|exact C'].
  - intros o (r & H & E). destruct (B _ H) as (r' & H' & C). destruct (X _ _ _ _ _ (eq_sym C) E) as (o' & E' & C').
    exists o'. split; [exists r'; auto|symmetry; exact C'].
Qed.

Lemma same_with : forall x v K K', (forall e s, same (K e s) (K' e s)) -> forall e s, same (with_var L x v K e s) (with_var L x v K' e s).
Proof. intros x v K K' H e s. unfold with_var. destruct (special L x); apply same_leave; apply H. Qed.

Lemma same_vars : forall b K K', (forall e s, same (K e s) (K' e s)) -> forall e s, same (with_vars L b K e s) (with_vars L b K' e s).
Proof. intros b K K' H e s. apply same_seq. intros vs e1 s1. apply same_leave. apply H. Qed.

Lemma same_star : forall b K K', (forall e s, same (K e s) (K' e s)) -> forall e s, same (with_vars_star L b K e s) (with_vars_star L b K' e s).
Proof.
  induction b as [|[x a] b IH]; intros K K' H e s; [apply H|]. cbn [with_vars_star]. apply same_seq. intros v e1 s1.
  apply same_with. apply IH. exact H.
Qed.

Section Do.
Variable test : exp.
Variables result forms : list exp.
Variable step : exp.
Variable stepped : env -> state -> out V -> Prop.
Hypothesis STEP : forall e s o, ends step e s o <-> stepped e s o.
Definition stop := If test (ReturnFrom 0 (Progn result)) (Const NIL).
Definition turn := stop :: forms ++ [step].

Lemma stop_ok : forall e s o, ends stop e s o <-> seq L (ends test e s) (fun v e s o =>
  if V_eqb v NIL then o = Normal NIL e s else seq L (ends_progn result e s) (fun v e s o => o = Exit 0 v e s) o) o.
Proof.
  intros e s o. unfold stop. rewrite ends_if. apply seq_ext; [reflexivity|]. intros v e1 s1 _.
  destruct (V_eqb v NIL); [apply ends_const|apply ends_return].
Qed.

Lemma turn_ok : forall e s o, ends_progn turn e s o <-> seq L (ends stop e s) (fun _ e s =>
  seq L (ends_progn forms e s) (fun _ => stepped)) o.
Proof.
  intros e s o. unfold turn.
  assert (X : forall a r, r <> [] -> ends_progn (a :: r) e s o <-> seq L (ends a e s) (fun _ e s => ends_progn r e s) o).
  { intros a [|b r] H; [contradiction|apply ends_progn_cons]. }
  rewrite X by (intros E; apply app_eq_nil in E as [_ E]; discriminate).
  apply seq_ext; [reflexivity|]. intros v e1 s1 _. rewrite ends_progn_snoc. apply seq_ext; [reflexivity|].
  intros w e2 s2 _. apply STEP.
Qed.

Lemma do_same : forall e s, same (forever L turn e s) (do_loop L test result forms stepped e s).
Proof.
  intros e s. split.
  - intros o H. induction H as [e s o P A|e s v e1 s1 o P H IH].
    + apply turn_ok in P. destruct P as (r & P & K). apply stop_ok in P. destruct P as (r0 & T & P).
      destruct r0 as [v e1 s1|b v e1 s1|t e1 s1|].
      * destruct (V_eqb v NIL) eqn:V.
        -- apply V_nil in V. subst v r. destruct K as (q & Q & K). destruct q as [v e2 s2|b v e2 s2|t e2 s2|].
           ++ exists o. split; [|reflexivity]. eapply do_step_exit; eassumption.
           ++ subst o. eexists. split; [|reflexivity]. eapply do_body_exit; [exact T|exact Q|exact I].
           ++ subst o. eexists. split; [|reflexivity]. eapply do_body_exit; [exact T|exact Q|exact I].
           ++ subst o. eexists. split; [|reflexivity]. eapply do_body_exit; [exact T|exact Q|exact I].
        -- assert (NV : v <> NIL) by (intros ->; discriminate). destruct P as (q & Q & P).
           exists q. split; [eapply do_stop; eassumption|].
           destruct q as [w e2 s2|b w e2 s2|t e2 s2|]; subst r; subst o; reflexivity.
      * subst r o. eexists. split; [|reflexivity]. apply do_test_exit; [exact T|exact I].
      * subst r o. eexists. split; [|reflexivity]. apply do_test_exit; [exact T|exact I].
      * subst r o. eexists. split; [|reflexivity]. apply do_test_exit; [exact T|exact I].
    + apply turn_ok in P. destruct P as (r & P & K). apply stop_ok in P. destruct P as (r0 & T & P).
      destruct r0 as [w f t|b w f t|b f t|].
      2-4: subst r; discriminate.
      destruct (V_eqb w NIL) eqn:V.
      * apply V_nil in V. subst w r. destruct K as (q & Q & K). destruct q as [w f1 t1|b w f1 t1|b f1 t1|]; try discriminate.
        destruct IH as (o' & IH & E). exists o'. split; [|exact E]. eapply do_turn; eassumption.
      * destruct P as (q & Q & P). destruct q as [w' f1 t1|b w' f1 t1|b f1 t1|]; subst r; discriminate.
  - intros o H. induction H as [e s o T A|e s v e1 s1 o T NV Q|e s e1 s1 o T Q A|e s e1 s1 v e2 s2 o T Q K A|e s e1 s1 v e2 s2 v' e3 s3 o T Q K H IH].
    + exists o. split; [|reflexivity]. apply forever_exit; [|exact A]. apply turn_ok. exists o. split.
      * apply stop_ok. exists o. split; [exact T|]. destruct o; [contradiction|reflexivity..].
      * destruct o; [contradiction|reflexivity..].
    + assert (Y : exists o0, ends stop e s o0 /\ cat o0 = cat o /\ abrupt L o0).
      { destruct o as [a f t|b a f t|b f t|].
        - exists (Exit 0 a f t). split; [|split; [reflexivity|exact I]]. apply stop_ok. eexists. split; [exact T|]. cbn beta iota.
          rewrite V_nil_false by exact NV. eexists. split; [exact Q|reflexivity].
        - exists (Exit b a f t). split; [|split; [reflexivity|exact I]]. apply stop_ok. eexists. split; [exact T|]. cbn beta iota.
          rewrite V_nil_false by exact NV. eexists. split; [exact Q|reflexivity].
        - exists (Jump b f t). split; [|split; [reflexivity|exact I]]. apply stop_ok. eexists. split; [exact T|]. cbn beta iota.
          rewrite V_nil_false by exact NV. eexists. split; [exact Q|reflexivity].
        - exists Err. split; [|split; [reflexivity|exact I]]. apply stop_ok. eexists. split; [exact T|]. cbn beta iota.
          rewrite V_nil_false by exact NV. eexists. split; [exact Q|reflexivity]. }
      destruct Y as (o0 & Y & E & A). exists o0. split; [|exact E]. apply forever_exit; [|exact A]. apply turn_ok.
      exists o0. split; [exact Y|]. destruct o0; [contradiction|reflexivity..].
    + exists o. split; [|reflexivity]. apply forever_exit; [|exact A]. apply turn_ok. exists (Normal NIL e1 s1). split.
      * apply stop_ok. eexists. split; [exact T|reflexivity].
      * exists o. split; [exact Q|]. destruct o; [contradiction|reflexivity..].
    + exists o. split; [|reflexivity]. apply forever_exit; [|exact A]. apply turn_ok. exists (Normal NIL e1 s1). split.
      * apply stop_ok. eexists. split; [exact T|reflexivity].
      * eexists. split; [exact Q|exact K].
    + destruct IH as (o' & IH & E). exists o'. split; [|exact E]. eapply forever_turn; [|exact IH]. apply turn_ok.
      exists (Normal NIL e1 s1). split.
      * apply stop_ok. eexists. split; [exact T|reflexivity].
      * eexists. split; [exact Q|exact K].
Qed.

Lemma do_body : forall tag, forallb (no_go tag) (test :: result ++ forms) = true -> no_go tag step = true ->
  forall e s, same (ends_progn [Const NIL; Tagbody (do_items tag test result forms step)] e s)
                   (do_loop L test result forms stepped e s).
Proof.
  intros tag H1 H2 e s.
  cbn [forallb] in H1. apply andb_prop in H1 as [HT H1]. rewrite forallb_app in H1. apply andb_prop in H1 as [HR HF].
  assert (X : forall o, ends_progn [Const NIL; Tagbody (do_items tag test result forms step)] e s o <-> forever L turn e s o).
  { intros o. rewrite ends_progn_cons. rewrite (seq_normal _ NIL _ _ _ _ _ (fun r => ends_const NIL _ _ r)).
    rewrite ends_progn_one. rewrite <- (tag_ok tag turn).
    - unfold items, after, do_items, turn, stop. cbn [map app]. rewrite map_app, <- app_assoc. reflexivity.
    - unfold turn. cbn [forallb]. rewrite forallb_app, HF. cbn [forallb]. rewrite H2.
      unfold no_go, stop in *. cbn [every allowed]. rewrite HT, HR. reflexivity. }
  destruct (do_same e s) as [A B]. split.
  - intros o H. apply A. apply X. exact H.
  - intros o H. destruct (B _ H) as (r & H' & E). exists r. split; [apply X; exact H'|exact E].
Qed.
End Do.

Lemma psetq_no_go : forall tag gs l, forallb (no_go tag) (map snd l) = true -> no_go tag (m_psetq gs l) = true.
Proof.
  intros tag gs l H. unfold m_psetq, no_go. cbn [every allowed forallb].
  replace (forallb (fun p => all (fst p)) (combine (map fst l) (map Var gs))) with true by (symmetry; apply forallb_forall; reflexivity).
  cbn [andb]. rewrite andb_true_r. apply andb_true_intro. split; apply forallb_forall; intros [a b] X.
  - apply in_combine_r in X. rewrite forallb_forall in H. apply H. exact X.
  - apply in_combine_r in X. apply in_map_iff in X as (y & <- & _). reflexivity.
Qed.

Lemma setq_no_go : forall tag l, forallb (no_go tag) (map snd l) = true -> no_go tag (Setq l) = true.
Proof.
  intros tag l H. unfold no_go. cbn [every allowed].
  replace (forallb (fun p => all (fst p)) l) with true by (symmetry; apply forallb_forall; reflexivity). cbn [andb].
  apply forallb_forall. intros p X. rewrite forallb_forall in H. apply H. apply in_map. exact X.
Qed.

Theorem do_ok : forall tag gs vars test result forms e s o, fresh gs (steps vars) ->
  forallb (no_go tag) (test :: result ++ forms) = true -> forallb (no_go tag) (map snd (steps vars)) = true ->
  (ends (m_do tag gs vars test result forms) e s o <-> do_spec L (inits vars) (steps vars) test result forms e s o).
Proof.
  intros tag gs vars test result forms e s o F H1 H2. unfold m_do, do_spec. rewrite ends_block.
  transitivity (block_nil L (with_vars L (inits vars) (ends_progn [Const NIL; Tagbody (do_items tag test result forms (m_psetq gs (steps vars)))]) e s) o).
  { apply block_ext. intros r. rewrite ends_progn_one. apply ends_let. }
  apply same_block. apply same_vars. apply do_body; [|exact H1|apply psetq_no_go; exact H2].
  intros e1 s1 r. apply psetq_ok. exact F.
Qed.

Theorem dostar_ok : forall tag vars test result forms e s o,
  forallb (no_go tag) (test :: result ++ forms) = true -> forallb (no_go tag) (map snd (steps vars)) = true ->
  (ends (m_dostar tag vars test result forms) e s o <-> dostar_spec L (inits vars) (steps vars) test result forms e s o).
Proof.
  intros tag vars test result forms e s o H1 H2. unfold m_dostar, dostar_spec. rewrite ends_block.
  transitivity (block_nil L (with_vars_star L (inits vars) (ends_progn [Const NIL; Tagbody (do_items tag test result forms (Setq (steps vars)))]) e s) o).
  { apply block_ext. intros r. rewrite ends_progn_one. apply ends_letstar. }
  apply same_block. apply same_star. apply do_body; [|exact H1|apply setq_no_go; exact H2]. reflexivity.
Qed.

(** ** when, unless, until *)

Theorem when_ok : forall c l e s o, ends (m_when c l) e s o <->
  seq L (ends c e s) (fun v e s => if V_eqb v NIL then value L NIL e s else ends_progn l e s) o.
Proof.
  intros c l e s o. unfold m_when. rewrite ends_if. apply seq_ext; [reflexivity|]. intros v e1 s1 _.
  destruct (V_eqb v NIL); [apply ends_const|reflexivity].
Qed.

Theorem unless_ok : forall c l e s o, ends (m_unless c l) e s o <->
  seq L (ends c e s) (fun v e s => if V_eqb v NIL then ends_progn l e s else value L NIL e s) o.
Proof.
  intros c l e s o. unfold m_unless. rewrite when_ok.
  rewrite (seq_ext _ _ _ _ _ _ _ (ends_null c e s) (fun _ _ _ _ => iff_refl _)). rewrite seq_seq.
  apply seq_ext; [reflexivity|]. intros v e1 s1 _. rewrite seq_eq. destruct (V_eqb v NIL); reflexivity.
Qed.
End Proofs.
