(** C106: what argument-parser makes of a command line. *)
From Coq Require Import ZArith Bool String Ascii List Lia.
From Verif Require Import ArgModel ArgSpec ArgProofs.
Import ListNotations.
Open Scope Z_scope.

(** After :parse-args the value of each argument is what its own occurrences mean; those of others and their order play no role. *)
Theorem C106_values_partial : forall ds argv p p', declare no_arguments ds = Some p -> (forall d, In d ds -> sensible (arg d)) -> parse_args p argv = Some p' ->
  forall d, In d ds -> exists n v, decl_name d = Some n /\ get_value p' n = Some v /\ means (arg d) (occurrences (flags d) argv) v.
Proof.
  intros ds argv p p' D Se H d Hd. pose proof (declared_all ds p D) as De. destruct (d_args _ _ De d Hd) as (n & Dn & A & Fl).
  unfold parse_args in H. destruct (parse_loop _ _ _ _) as [[pl w]|] eqn:L; [|discriminate]. destruct w; [|discriminate]. injection H as <-.
  destruct (loop_runs _ _ _ _ _ _ L) as (_ & K & _). destruct (K n (arg d) A) as (a' & R & A'). rewrite (named_occurrences p n d argv Fl) in R.
  apply run_means in R; [|apply Se, Hd]. destruct R as (v & M & ->). exists n, v. split; [exact Dn|]. split; [|exact M]. unfold get_value. cbn [plist]. rewrite A'. reflexivity.
Qed.
(** And it signals an error exactly if there is an unknown flag, an argument whose occurrences have no meaning, or one that is required and does not occur. *)
Theorem C106_accepts_partial : forall ds argv p, declare no_arguments ds = Some p -> (forall d, In d ds -> sensible (arg d)) ->
  (parse_args p argv <> None <->
   (forall s, In s argv -> flag_name_p s = true -> exists d, In d ds /\ In (fst (split_flag s)) (flags d)) /\
   (forall d, In d ds -> exists v, means (arg d) (occurrences (flags d) argv) v) /\
   (forall d, In d ds -> required (arg d) = true -> occurrences (flags d) argv <> [])).
Proof.
  intros ds argv p D Se. pose proof (declared_all ds p D) as De.
  set (w := map fst (filter (fun x => required (snd x)) (plist p))).
  assert (Nw : NoDup w).
  { unfold w. pose proof (d_nodup _ _ De) as N. clear -N. induction (plist p) as [|[x a] l IH]; [constructor|]. cbn [map fst] in N. inversion N as [|? ? Nx N']; subst.
    cbn [filter snd]. destruct (required a); [|exact (IH N')]. cbn [map fst]. constructor; [|exact (IH N')]. intros C. apply Nx. apply in_map_iff in C. destruct C as (y & <- & Y). apply filter_In in Y. apply in_map, Y. }
  assert (Iw : forall d n, In d ds -> decl_name d = Some n -> (required (arg d) = true <-> In n w)).
  { intros d n Hd Dn. destruct (d_args _ _ De d Hd) as (n' & Dn' & A & _). assert (n' = n) by congruence. subst n'. unfold w. rewrite in_map_iff. split.
    - intros R. exists (n, arg d). split; [reflexivity|]. apply filter_In. split; [apply assoc_in; [exact (d_nodup _ _ De) | exact A] | exact R].
    - intros ([m a] & E & I). cbn [fst] in E. subst m. apply filter_In in I. destruct I as [I R]. apply assoc_in in I; [|exact (d_nodup _ _ De)]. cbn [snd] in R. congruence. }
  split.
  - intros H. unfold parse_args in H. fold w in H. destruct (parse_loop _ _ _ _) as [[pl w']|] eqn:L; [|contradiction]. destruct w' as [|]; [|contradiction].
    destruct (loop_runs _ _ _ _ _ _ L) as (K1 & K2 & K3). split; [|split].
    + intros s Hs F. destruct (K1 s) as (n & An); [apply filter_In; auto|]. destruct (assoc n (plist p)) as [a|] eqn:A; [|destruct (d_flags _ _ De _ _ An A)].
      destruct (d_only _ _ De n a A) as (d & Hd & Dn & _). exists d. split; [exact Hd|]. destruct (d_args _ _ De d Hd) as (n' & Dn' & _ & Fl). assert (n' = n) by congruence. subst n'. apply Fl, An.
    + intros d Hd. destruct (d_args _ _ De d Hd) as (n & Dn & A & Fl). destruct (K2 n (arg d) A) as (a' & R & _). rewrite (named_occurrences p n d argv Fl) in R.
      apply run_means in R; [|apply Se, Hd]. destruct R as (v & M & _). exists v. exact M.
    + intros d Hd R E. destruct (d_args _ _ De d Hd) as (n & Dn & A & Fl). apply (proj2 (K3 Nw n)). split; [apply (Iw d n Hd Dn), R|]. rewrite (named_occurrences p n d argv Fl). exact E.
  - intros (K1 & K2 & K3). unfold parse_args. fold w.
    assert (N : parse_loop (flaglst p) (filter flag_name_p argv) (plist p) w <> None).
    { apply loop_ends.
      - intros s Hs. apply filter_In in Hs. destruct Hs as [Hs F]. destruct (K1 s Hs F) as (d & Hd & Fd). destruct (d_args _ _ De d Hd) as (n & Dn & A & Fl). exists n. split; [apply Fl, Fd | congruence].
      - intros n a A. destruct (d_only _ _ De n a A) as (d & Hd & Dn & <-). destruct (d_args _ _ De d Hd) as (n' & Dn' & _ & Fl). assert (n' = n) by congruence. subst n'.
        rewrite (named_occurrences p n d argv Fl). destruct (K2 d Hd) as (v & M). intros R. assert (G : run (arg d) (occurrences (flags d) argv) = Some (set_value (arg d) v)) by (apply run_means; [apply Se, Hd | exists v; auto]).
        congruence. }
    destruct (parse_loop _ _ _ _) as [[pl w']|] eqn:L; [|contradiction]. destruct (loop_runs _ _ _ _ _ _ L) as (_ & _ & R). destruct w' as [|n w']; [discriminate|]. exfalso.
    destruct (proj1 (R Nw n) (or_introl eq_refl)) as [I E]. assert (I' := I). unfold w in I'. apply in_map_iff in I'. destruct I' as ([m a] & E1 & I'). cbn [fst] in E1. subst m.
    apply filter_In in I'. destruct I' as [I' Rq]. apply assoc_in in I'; [|exact (d_nodup _ _ De)]. cbn [snd] in Rq. destruct (d_only _ _ De n a I') as (d & Hd & Dn & <-).
    destruct (d_args _ _ De d Hd) as (n' & Dn' & _ & Fl). assert (n' = n) by congruence. subst n'. apply (K3 d Hd Rq). rewrite <- (named_occurrences p n d argv Fl). exact E.
Qed.
(** In particular: a :store-true argument is t if it occurs and else nil, *)
Theorem C106_store_true : forall c ch rd rq occ v, means (init_argument VNil StoreTrue c ch None rd rq) occ v -> v = match occ with [] => VNil | _ => VT end.
Proof.
  intros c ch rd rq occ v (vs & F & ->). cbn [init_argument value]. induction F as [|o x occ vs [G _] F IH]; [reflexivity|]. rewrite last_cons. destruct o; [destruct G|]. cbn in G. subst x.
  clear IH. induction F as [|o x occ vs [G _] F IH]; [reflexivity|]. rewrite last_cons. destruct o; [destruct G|]. cbn in G. subst x. exact IH.
Qed.
(** a :count argument is the number of its occurrences, nil if there is none, *)
Theorem C106_count : forall c ch ck rq occ v, means (init_argument VNil Count c ch ck None rq) occ v -> v = match occ with [] => VNil | _ => VInt (Z.of_nat (length occ)) end.
Proof.
  intros c ch ck rq occ v [[-> ->] | (n & V & _ & _ & N & ->)]; [reflexivity|]. cbn [init_argument value] in V. destruct V as [V | [_ ->]]; [discriminate|]. destruct occ; [contradiction | reflexivity].
Qed.
(** and a text is taken as it is behind the first = *)
Theorem C106_split : forall name v, find_equals name = false -> split_flag (name ++ String equals v) = (name, Some v) /\ split_flag name = (name, None).
Proof.
  induction name as [|c name IH]; intros v H; cbn [find_equals append split_flag] in *; [split; reflexivity|]. apply orb_false_iff in H. destruct H as [H1 H2]. rewrite H1.
  destruct (IH v H2) as [-> ->]. split; reflexivity.
Qed.

(** The strings looked at are those that begin with - and do not consist of nothing else. *)
Theorem C106_flag_name : forall s, flag_name_p s = true <-> (exists r, s = String dash r) /\ exists c, In c (list_ascii_of_string s) /\ c <> dash.
Proof.
  intros s. unfold flag_name_p. assert (T : String.eqb (left_trim s) "" = false <-> exists c, In c (list_ascii_of_string s) /\ c <> dash).
  { induction s as [|c s IH]; cbn [left_trim list_ascii_of_string In]; [split; [discriminate | intros (c & [] & _)]|]. destruct (Ascii.eqb c dash) eqn:E.
    - apply Ascii.eqb_eq in E. subst c. rewrite IH. split; [intros (c & I & N); exists c; auto | intros (c & [I | I] & N); [congruence | exists c; auto]].
    - apply Ascii.eqb_neq in E. split; [intros _; exists c; auto | reflexivity]. }
  rewrite andb_true_iff, negb_true_iff, T. destruct s as [|c s]; [split; [intros [_ H]; discriminate | intros [(r & H) _]; discriminate]|]. rewrite Ascii.eqb_eq.
  split; [intros [A ->]; split; [exists s; reflexivity | exact A] | intros [(r & H) A]; injection H as -> _; split; [exact A | reflexivity]].
Qed.

(** An argument that takes no value but is declared with :read t cannot be given: the number, t or nil that is to be stored is given to read-from-string. *)
Definition counter : decl := Decl ["-v"%string] None (init_argument VNil Count VNil [] None (Some (fun _ => Some (VInt 0))) false).
Theorem C106_refuted : exists p, declare no_arguments [counter] = Some p /\ parse_args p ["-v"%string] = None /\ means (set_value (arg counter) VNil) [None] (VInt 1).
Proof.
  eexists. split; [reflexivity|]. split; [reflexivity|]. right. exists 0. split; [right; auto|]. split; [repeat constructor|].
  split; [intros i Hi; split; [discriminate | left; reflexivity]|]. split; [discriminate | reflexivity].
Qed.

Definition foo : decl := Decl ["--foo"%string; "-f"%string] None (init_argument (VInt 10) Store VNil [] (Some (fun v => negb (if val_eq_dec v (VStr "") then true else false))) None true).
Definition bar : decl := Decl ["--bar"%string] None (init_argument VNil StoreTrue VNil [] None None false).
Definition inc : decl := Decl ["-I"%string] (Some "dirs"%string) (init_argument VNil Append VNil [] None None false).
Definition argv1 : list string := ["prog"%string; "-f=a"%string; "-I=x"%string; "--bar"%string; "--foo=b=c"%string; "-I=y"%string; "--"%string].
Example C106_example : exists p p', declare no_arguments [foo; bar; inc] = Some p /\ parse_args p argv1 = Some p' /\
  get_value p' "FOO" = Some (VStr "b=c") /\ get_value p' "BAR" = Some VT /\ get_value p' "DIRS" = Some (VCons (VStr "x") (VCons (VStr "y") VNil)) /\
  (forall d, In d [foo; bar; inc] -> sensible (arg d)) /\ occurrences (flags foo) argv1 = [Some "a"%string; Some "b=c"%string].
Proof. do 2 eexists. repeat (split; [reflexivity|]). split; [|reflexivity]. intros d [<- | [<- | [<- | []]]]; cbn; auto. Qed.
(** errors: no value, an unknown flag, the required one missing, the same flag declared twice *)
Example C106_errors : forall p, declare no_arguments [foo; bar; inc] = Some p ->
  parse_args p ["--foo"%string] = None /\ parse_args p ["-f=1"%string; "-x"%string] = None /\ parse_args p ["--bar"%string] = None /\ add_argument p (Decl ["-f"%string] None (arg bar)) = None.
Proof. intros p H. injection H as <-. repeat split; reflexivity. Qed.

Print Assumptions C106_values_partial.
Print Assumptions C106_accepts_partial.
Print Assumptions C106_store_true.
Print Assumptions C106_count.
Print Assumptions C106_split.
Print Assumptions C106_flag_name.
Print Assumptions C106_refuted.
