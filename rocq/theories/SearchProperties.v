(** Property C83: the search functions of lib/llib/search.l find routes. *)
From Coq Require Import List Arith Bool Lia Sorting.Permutation Sorting.Sorted.
From Verif Require Import ListModel SeqModel SeqProofs SearchModel SearchSpec SearchProofs.
Import ListNotations.

(** merge-list is right whenever the predicate answers when its first argument is NIL, whatever it answers (C19) *)
Theorem C19_merge_list_answers_partial : forall V (nil : V) (pred : V -> V -> option bool) (R : V -> V -> Prop) l1 l2,
  (forall x y z, R x y -> R y z -> R x z) ->
  (forall x y, In x (l1 ++ l2) -> In y (l1 ++ l2) -> (pred x y = Some true /\ R x y) \/ (pred x y = Some false /\ R y x)) ->
  (forall y, In y (l1 ++ l2) -> exists b, pred nil y = Some b) ->
  StronglySorted R l1 -> StronglySorted R l2 ->
  exists r, merge_list nil pred l1 l2 = Ret r /\ Permutation r (l1 ++ l2) /\ StronglySorted R r.
Proof.
  intros V nil pred R l1 l2 Tr P Pn S1 S2. apply (merge_tot nil pred R Tr (fun x => In x (l1 ++ l2))); try assumption.
  - intros x y Hx Hy. destruct (P x y Hx Hy) as [[E _]|[E _]]; eexists; exact E.
  - intros x y Hx Hy E. destruct (P x y Hx Hy) as [[_ H]|[E' _]]; [exact H|congruence].
  - intros x y Hx Hy E. destruct (P x y Hx Hy) as [[E' _]|[_ H]]; [congruence|exact H].
  - apply Forall_forall. intros x Hx. apply in_app_iff. left. exact Hx.
  - apply Forall_forall. intros x Hx. apply in_app_iff. right. exact Hx.
Qed.
Print Assumptions C19_merge_list_answers_partial.

Inductive method := DepthFirst | BreadthFirst | BestFirst | HillClimb | BranchAndBound.
Section Search.
Context {N : Type} (eqb : N -> N -> bool).
(** (breadth-first start finish #'extend) and so on *)
Definition search (m : method) (finish : N) (extend : list N -> list (list N)) (ev : list N -> list N -> bool)
    (evnil : list N -> option bool) (fuel : nat) (start : N) : answer N :=
  let q := [[start]] in
  match m with
  | DepthFirst => depth_first eqb finish extend fuel q
  | BreadthFirst => breadth_first eqb finish extend fuel q
  | BestFirst => best_first eqb finish extend ev evnil fuel q
  | HillClimb => hill_climb eqb finish extend ev fuel q
  | BranchAndBound => branch_and_bound eqb finish extend ev fuel q
  end.
Hypothesis eqb_spec : forall x y, eqb x y = true <-> x = y.
Section WithGraph.
Variables (succ : N -> list N) (finish start : N) (ev : list N -> list N -> bool) (evnil : list N -> option bool).
Notation ext := (extend_wing eqb succ).
Notation run m fuel := (search m finish ext ev evnil fuel start).

Lemma stepping_of : forall m, exists F next, stepping eqb finish F next /\ fair ext next /\ forall f, run m f = F f [[start]].
Proof.
  intros [].
  - exists (depth_first eqb finish ext), (next_df ext). split; [apply df_stepping|]. split; [apply df_fair|reflexivity].
  - exists (breadth_first eqb finish ext), (next_bf ext). split; [apply bf_stepping|]. split; [apply bf_fair|reflexivity].
  - exists (best_first eqb finish ext ev evnil), (next_be ext ev evnil). split; [apply be_stepping|]. split; [apply be_fair|reflexivity].
  - exists (hill_climb eqb finish ext ev), (next_hc ext ev). split; [apply hc_stepping|]. split; [apply hc_fair|reflexivity].
  - exists (branch_and_bound eqb finish ext ev), (next_bb ext ev). split; [apply bb_stepping|]. split; [apply bb_fair|reflexivity].
Qed.
Lemma fin_route : forall r, arrived eqb finish r = true -> from ext [[start]] r -> route succ start finish (rev r) /\ NoDup (rev r) /\ exists n, derived ext [start] n r.
Proof.
  intros r Fi [p [n [[<-|[]] D]]]. pose proof D as D0. apply (derived_route eqb eqb_spec) in D. destruct D as [b [t [-> [R [Nd _]]]]]. cbn in Fi. apply eqb_spec in Fi. subst.
  split; [exact R|]. split; [apply NoDup_rev; exact Nd|exists n; exact D0].
Qed.
Lemma route_from : forall l, route succ start finish l -> NoDup l -> arrived eqb finish (rev l) = true /\ from ext [[start]] (rev l).
Proof.
  intros l R Nd. split.
  - destruct (route_last _ _ _ _ R) as [[<- ->]|[l' [b' [-> _]]]]; [|rewrite rev_app_distr]; cbn; apply eqb_spec; reflexivity.
  - exists [start], (length l - 1). split; [left; reflexivity|]. exact (route_derived eqb eqb_spec succ l start finish R Nd).
Qed.

(** whatever is answered is a route from start to finish, without repetitions *)
Theorem C83_sound : forall m fuel l, run m fuel = Found l -> route succ start finish l /\ NoDup l.
Proof.
  intros m fuel l E. destruct (stepping_of m) as [F [next [St [Fr Eq]]]]. rewrite Eq in E. destruct (sound eqb finish ext F next St Fr _ _ _ E) as [r [-> [Fi H]]].
  destruct (fin_route r Fi H) as [R [Nd _]]. auto.
Qed.

(** in a finite graph the search ends, and says NIL just when there is no route; only best-first can fail, and only
    when the evaluator fails on NIL *)
Theorem C83_complete : forall m, finite_from succ start -> exists g, forall fuel, g <= fuel ->
  (exists l, run m fuel = Found l /\ route succ start finish l) \/
  (run m fuel = NoPath /\ forall l, ~ route succ start finish l) \/
  (m = BestFirst /\ run m fuel = Fail /\ ~ (forall y, exists b, evnil y = Some b)).
Proof.
  intros m Fin. destruct (stepping_of m) as [F [next [St [Fr Eq]]]]. destruct (shallow_start eqb eqb_spec succ start Fin) as [d Sh].
  exists (S (list_sum (map (size ext d) [[start]]))). intros fuel Hf.
  assert (Ns : run m fuel <> Stuck). { rewrite Eq. apply (ends eqb finish ext F next St Fr d); [constructor; [exact Sh|constructor]|lia]. }
  destruct (run m fuel) as [| |l|] eqn:E.
  - contradiction.
  - right; left. split; [reflexivity|]. intros l R. destruct (route_simple eqb eqb_spec succ _ _ _ R) as [l' [R' [Nd _]]]. destruct (route_from l' R' Nd) as [Fi H].
    rewrite Eq in E. exact (complete eqb finish ext F next St Fr _ _ E _ Fi H).
  - left. exists l. split; [reflexivity|]. apply (C83_sound m fuel l E).
  - right; right. destruct m; cbn [search] in E.
    + exfalso. clear -E. revert E. generalize [[start]]. induction fuel as [|f IH]; intros [|p q] E; cbn in E; try discriminate. destruct (arrived eqb finish p); [discriminate|]. exact (IH _ E).
    + exfalso. clear -E. revert E. generalize [[start]]. induction fuel as [|f IH]; intros [|p q] E; cbn in E; try discriminate. destruct (arrived eqb finish p); [discriminate|]. exact (IH _ E).
    + split; [reflexivity|]. split; [reflexivity|]. intro T. exact (be_no_fail eqb finish ext ev evnil T fuel [[start]] E).
    + exfalso. clear -E. revert E. generalize [[start]]. induction fuel as [|f IH]; intros [|p q] E; cbn in E; try discriminate. destruct (arrived eqb finish p); [discriminate|]. exact (IH _ E).
    + exfalso. clear -E. revert E. generalize [[start]]. induction fuel as [|f IH]; intros [|p q] E; cbn in E; try discriminate. destruct (arrived eqb finish p); [discriminate|]. exact (IH _ E).
Qed.

(** breadth-first finds a shortest route, in every graph, also an infinite one *)
Theorem C83_breadth_first : forall l0, route succ start finish l0 -> exists l g, (forall fuel, g <= fuel -> run BreadthFirst fuel = Found l) /\
  route succ start finish l /\ NoDup l /\ forall l', route succ start finish l' -> length l <= length l'.
Proof.
  intros l0 R0. destruct (route_simple eqb eqb_spec succ _ _ _ R0) as [l1 [R1 [Nd1 _]]]. destruct (route_from l1 R1 Nd1) as [Fi [p [n [[<-|[]] D]]]].
  destruct (bf_shortest eqb finish ext [start] n (rev l1) D Fi) as [m [r [g [_ [Dr [Fr [Mi Hg]]]]]]].
  destruct (derived_route eqb eqb_spec succ _ _ _ Dr) as [b [t [_ [_ [_ Lr]]]]].
  exists (rev r), g. split; [exact Hg|]. destruct (fin_route r Fr) as [R [Nd _]]; [exists [start], m; split; [left; reflexivity|exact Dr]|]. split; [exact R|]. split; [exact Nd|].
  intros l' R'. destruct (route_simple eqb eqb_spec succ _ _ _ R') as [l2 [R2 [Nd2 Le]]]. destruct (route_from l2 R2 Nd2) as [Fi2 [p [k [[<-|[]] D2]]]].
  rewrite rev_length, Lr. destruct (derived_route eqb eqb_spec succ _ _ _ D2) as [b2 [t2 [_ [_ [_ L2]]]]]. rewrite rev_length in L2.
  destruct (le_lt_dec m k) as [H|H]; [lia|]. rewrite (Mi k _ H D2) in Fi2. discriminate.
Qed.

(** depth-first finds the route that takes the earlier successor where two routes part *)
Theorem C83_depth_first : forall fuel l, finite_from succ start -> run DepthFirst fuel = Found l ->
  forall l', route succ start finish l' -> NoDup l' ->
  l' = l \/ exists c b x y u v, l = (c ++ [b]) ++ x :: u /\ l' = (c ++ [b]) ++ y :: v /\ before (succ b) x y.
Proof.
  intros fuel l Fin E l' R' Nd'. destruct (shallow_start eqb eqb_spec succ start Fin) as [d Sh]. cbn [search] in E.
  rewrite (df_pre eqb finish ext d) in E; [|constructor; [exact Sh|constructor]|rewrite E; discriminate]. cbn [flat_map] in E. rewrite app_nil_r in E.
  destruct (find (arrived eqb finish) (pre ext d [start])) as [r|] eqn:Ef; [|discriminate]. injection E as <-.
  destruct (route_from l' R' Nd') as [Fi [p [n [[<-|[]] D]]]].
  destruct (pre_first eqb eqb_spec finish ext (ext_simple eqb eqb_spec succ) d [start] r Ef (rev l') (derived_pre ext n _ _ d D Sh) Fi) as [<-|[c [x [y [_ [B [[a ->] [a' E']]]]]]]];
    [left; symmetry; apply rev_involutive|]. right.
  assert (El : l' = rev (a' ++ y :: c)) by (rewrite <- E'; symmetry; apply rev_involutive).
  assert (Ny : ~ In y c). { assert (Q : NoDup (a' ++ y :: c)) by (rewrite <- E'; apply NoDup_rev; exact Nd'). apply NoDup_remove_2 in Q. intro H. apply Q. apply in_app_iff. right. exact H. }
  destruct c as [|b t]; [destruct B as [_ [l1 [l2 [B _]]]]; destruct l1; discriminate|].
  exists (rev t), b, x, y, (rev a), (rev a'). split; [rewrite rev_app_distr; cbn [rev]; rewrite <- !app_assoc; reflexivity|].
  split; [rewrite El, rev_app_distr; cbn [rev]; rewrite <- !app_assoc; reflexivity|]. exact (before_wing eqb eqb_spec succ _ _ _ _ Ny B).
Qed.
(** and hill-climb the one whose first part the evaluator does not rank behind *)
Theorem C83_hill_climb : forall fuel l (R : list N -> list N -> Prop), finite_from succ start ->
  (forall x y, ev x y = true -> R x y) -> (forall x y, ev x y = false -> R y x) -> (forall x y z, R x y -> R y z -> R x z) ->
  run HillClimb fuel = Found l -> forall l', route succ start finish l' -> NoDup l' ->
  l' = l \/ exists c x y u v, l = c ++ x :: u /\ l' = c ++ y :: v /\ x <> y /\ R (x :: rev c) (y :: rev c).
Proof.
  intros fuel l R Fin P1 P2 Tr E l' R' Nd'. destruct (shallow_start eqb eqb_spec succ start Fin) as [d Sh]. cbn [search] in E. rewrite hill_depth in E. set (ext' := fun p => sortp ev (ext p)) in *.
  assert (Pe : forall p, Permutation (ext' p) (ext p)) by (intro p; apply sortp_perm).
  apply (shallow_perm ext ext' Pe) in Sh.
  rewrite (df_pre eqb finish ext' d) in E; [|constructor; [exact Sh|constructor]|rewrite E; discriminate]. cbn [flat_map] in E. rewrite app_nil_r in E.
  destruct (find (arrived eqb finish) (pre ext' d [start])) as [r|] eqn:Ef; [|discriminate]. injection E as <-.
  destruct (route_from l' R' Nd') as [Fi [p [n [[<-|[]] D]]]]. apply (derived_perm ext ext' Pe) in D.
  assert (Si : forall p q, In q (ext' p) -> exists n, q = n :: p /\ ~ In n p). { intros p q H. apply (ext_simple eqb eqb_spec succ). apply (Permutation_in _ (Pe p)). exact H. }
  destruct (pre_first eqb eqb_spec finish ext' Si d [start] r Ef (rev l') (derived_pre ext' n _ _ d D Sh) Fi) as [<-|[c [x [y [Hy [[Nxy [l1 [l2 [B Nl]]]] [[a ->] [a' E']]]]]]]];
    [left; symmetry; apply rev_involutive|]. right.
  assert (El : l' = rev (a' ++ y :: c)) by (rewrite <- E'; symmetry; apply rev_involutive).
  exists (rev c), x, y, (rev a), (rev a'). split; [rewrite rev_app_distr; cbn [rev]; rewrite <- !app_assoc; reflexivity|].
  split; [rewrite El, rev_app_distr; cbn [rev]; rewrite <- !app_assoc; reflexivity|]. split; [intros ->; contradiction|]. rewrite rev_involutive.
  destruct (sortp_ok ev R P1 P2 Tr (ext c)) as [_ S]. change (sortp ev (ext c)) with (ext' c) in S. rewrite B in S, Hy. apply (SSapp R) in S. destruct S as [_ [S _]]. inversion_clear S as [|? ? _ F]. rewrite Forall_forall in F. apply F.
  apply in_app_iff in Hy. destruct Hy as [Hy|[Hy|Hy]]; [contradiction|congruence|exact Hy].
Qed.
(** branch-and-bound, and best-first with an evaluator that answers on NIL, find a cheapest route *)
Theorem C83_cheapest : forall m fuel l (R : list N -> list N -> Prop),
  (forall x y, ev x y = true -> R x y) -> (forall x y, ev x y = false -> R y x) -> (forall x y z, R x y -> R y z -> R x z) ->
  (forall p x, R p (x :: p)) ->
  m = BranchAndBound \/ m = BestFirst /\ (forall y, exists b, evnil y = Some b) ->
  run m fuel = Found l -> forall l', route succ start finish l' -> NoDup l' -> R (rev l) (rev l').
Proof.
  intros m fuel l R P1 P2 Tr Mo Hm E l' R' Nd'. destruct (route_from l' R' Nd') as [Fi H].
  assert (mono : forall p q, In q (ext p) -> R p q). { intros p q Hq. apply (ext_simple eqb eqb_spec) in Hq. destruct Hq as [n [-> _]]. apply Mo. }
  assert (So : StronglySorted R [[start]]) by (constructor; constructor).
  destruct Hm as [->|[-> T]]; cbn [search] in E.
  - exact (best eqb finish ext ev R P1 P2 Tr mono _ _ (bb_stepping eqb finish ext ev) (bb_fair ext ev) (bb_sorted ext ev R P1 P2 Tr) fuel _ l So E _ Fi H).
  - refine (be_best eqb finish ext ev evnil R P1 P2 Tr (ext_nonnil eqb eqb_spec succ) T mono fuel _ l _ So E _ Fi H). constructor; [discriminate|constructor].
Qed.
End WithGraph.
End Search.
Print Assumptions C83_sound.
Print Assumptions C83_complete.
Print Assumptions C83_breadth_first.
Print Assumptions C83_depth_first.
Print Assumptions C83_hill_climb.
Print Assumptions C83_cheapest.

(** With an extension function of the caller's own making: breadth-first answers with a path that takes the fewest
    extensions. *)
Theorem C83_any_extend : forall {N : Type} (eqb : N -> N -> bool) finish (extend : list N -> list (list N)) start n p,
  (forall x y, eqb x y = true <-> x = y) -> derived extend [start] n (finish :: p) ->
  exists m r g, m <= n /\ derived extend [start] m (finish :: r) /\ (forall k q, derived extend [start] k (finish :: q) -> m <= k) /\
    forall fuel, g <= fuel -> breadth_first eqb finish extend fuel [[start]] = Found (rev (finish :: r)).
Proof.
  intros N eqb finish extend start n p Sp D.
  assert (Fp : forall q, arrived eqb finish (finish :: q) = true) by (intro q; cbn; apply Sp; reflexivity).
  destruct (bf_shortest eqb finish extend [start] n (finish :: p) D (Fp p)) as [m [r [g [Hm [Dr [Fr [Mi Hg]]]]]]].
  destruct r as [|x r]; [discriminate|]. cbn in Fr. apply Sp in Fr. subst x. exists m, r, g. split; [exact Hm|]. split; [exact Dr|]. split; [|exact Hg].
  intros k q Dk. destruct (le_lt_dec m k) as [H|H]; [exact H|]. specialize (Fp q). rewrite (Mi k _ H Dk) in Fp. discriminate.
Qed.
Print Assumptions C83_any_extend.

(** A graph with a dead end (5), a cycle (0 1 2) and two ways to 4 *)
Definition g (n : nat) : list nat :=
  match n with 0 => [5; 1; 3] | 1 => [2; 0] | 2 => [0; 4] | 3 => [4] | _ => [] end.
Definition shorter (a b : list nat) : bool := length a <? length b.
(** a node costs the square of its number *)
Definition price (p : list nat) : nat := fold_right (fun n s => n * n + s) 0 p.
Definition cheaper (a b : list nat) : bool := price a <? price b.
Definition demo m finish ev evnil := search Nat.eqb m finish (extend_wing Nat.eqb g) ev evnil 100 0.
Example C83_ex : forall y : option bool, y <> None ->
  demo DepthFirst 4 shorter (fun _ => y) = Found [0; 1; 2; 4] /\ demo BreadthFirst 4 shorter (fun _ => y) = Found [0; 3; 4] /\
  demo BranchAndBound 4 cheaper (fun _ => y) = Found [0; 1; 2; 4] /\ demo BestFirst 4 cheaper (fun _ => y) = Found [0; 1; 2; 4] /\
  demo HillClimb 4 (fun a b => cheaper b a) (fun _ => y) = Found [0; 3; 4] /\ demo BreadthFirst 7 shorter (fun _ => y) = NoPath.
Proof. intros [[]|] H; [| |contradiction]; repeat split; reflexivity. Qed.
Example C83_finite : finite_from g 0 /\ (forall x y, Nat.eqb x y = true <-> x = y).
Proof.
  split; [|apply Nat.eqb_eq]. exists [0; 1; 2; 3; 4; 5]. split; [left; reflexivity|]. intros a b Ha Hb.
  repeat (destruct Ha as [<-|Ha]; [repeat (destruct Hb as [<-|Hb]; [cbn; tauto|]); contradiction|]). contradiction.
Qed.
Example C83_orders : let R := fun a b => price a <= price b in
  (forall x y, cheaper x y = true -> R x y) /\ (forall x y, cheaper x y = false -> R y x) /\ (forall x y z, R x y -> R y z -> R x z) /\ (forall p x, R p (x :: p)).
Proof.
  cbn zeta. repeat split; intros; unfold cheaper in *; try (apply Nat.ltb_lt in H; lia); try (apply Nat.ltb_ge in H; lia); try lia; apply Nat.le_add_l.
Qed.
(** best-first with an evaluator that only takes paths: after the dead end merge asks the evaluator about NIL *)
Theorem C83_best_first_refuted : exists (succ : nat -> list nat) ev evnil l, finite_from succ 0 /\ route succ 0 4 l /\
  forall fuel, 3 <= fuel -> search Nat.eqb BestFirst 4 (extend_wing Nat.eqb succ) ev evnil fuel 0 = Fail.
Proof.
  exists g, (fun a b => cheaper b a), (fun _ => None), [0; 3; 4]. split; [apply C83_finite|]. split.
  - apply (route_step g 0 4 3); [cbn; tauto|]. apply (route_step g 3 4 4); [cbn; tauto|constructor].
  - intros fuel H. destruct fuel as [|[|[|f]]]; try lia. reflexivity.
Qed.
Print Assumptions C83_best_first_refuted.
