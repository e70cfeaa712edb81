(** The translator gives each expression a form of its value. *)
From Coq Require Import ZArith List Bool Arith Lia.
From Verif Require Import InfixModel InfixSpec InfixProofs.
Import ListNotations.
Open Scope nat_scope.

Scheme atomic_i := Induction for atomic Sort Prop
with args_i := Induction for args Sort Prop
with power_i := Induction for power Sort Prop
with prod_i := Induction for prod Sort Prop
with prod_rest_i := Induction for prod_rest Sort Prop
with sum_i := Induction for sum Sort Prop
with sum_rest_i := Induction for sum_rest Sort Prop.
Combined Scheme infix_i from atomic_i, args_i, power_i, prod_i, prod_rest_i, sum_i, sum_rest_i.

Lemma sizes_app a b : sizes (a ++ b) = sizes a + sizes b.
Proof. induction a; cbn [app sizes]; lia. Qed.
Lemma size_list l : size (TList l) = S (sizes l).
Proof. reflexivity. Qed.
Lemma size_pos t : 1 <= size t.
Proof. destruct t; cbn [size]; lia. Qed.

Definition level (o : op) : nat := match o with Power => 1 | Times | Over => 2 | Plus | Minus => 3 | Rel _ => 4 end.
Definition follow (k : nat) (rest : list tok) : Prop :=
  match rest with TList _ :: _ => False | TOp o :: _ => k <= level o | _ => True end.
Lemma follow_less j k rest : j <= k -> follow k rest -> follow j rest.
Proof. intros L. destruct rest as [|[s | z | o | l] rest]; cbn; auto. lia. Qed.

(** atomic expressions begin with a name, a number or a list *)
Lemma w_atomic_nonempty a : exists t l, w_atomic a = t :: l /\ (forall o, t <> TOp o).
Proof. destruct a; cbn [w_atomic]; do 2 eexists; (split; [reflexivity | discriminate]). Qed.
Lemma w_power_nonempty p : exists t l, w_power p = t :: l /\ (forall o, t <> TOp o).
Proof. destruct p as [a | a b]; cbn [w_power]; destruct (w_atomic_nonempty a) as (t & l & -> & N0); do 2 eexists; (split; [reflexivity | exact N0]). Qed.
Lemma w_prod_nonempty p : exists t l, w_prod p = t :: l /\ (forall o, t <> TOp o).
Proof. destruct p as [p l]; cbn [w_prod]; destruct (w_power_nonempty p) as (t & l' & -> & N0); do 2 eexists; (split; [reflexivity | exact N0]). Qed.
Lemma w_sum_nonempty e : exists t l, w_sum e = t :: l.
Proof. destruct e as [[[]|] p l]; cbn [w_sum]; destruct (w_prod_nonempty p) as (t & l' & -> & N0); do 2 eexists; reflexivity. Qed.
Lemma begins_well_follow e rest : begins_well e -> follow 4 (w_sum e ++ rest).
Proof.
  destruct e as [[s|] [p l] m]; cbn [begins_well]; [intros [] |]. destruct p as [[]|[]]; cbn; auto.
Qed.
Lemma w_args_first l : exists rest, w_args l = w_sum (first_of l) ++ rest.
Proof. destruct l; cbn [w_args first_of]; [exists []; rewrite app_nil_r; reflexivity | eauto]. Qed.

Definition lit_power (p : power) := match p with POne a => literal a | _ => None end.
Definition lit_prod (p : prod) := match p with Prod p PEnd => lit_power p | _ => None end.
Definition lit_sum (e : sum) := match e with Sum None p SEnd | Sum (Some false) p SEnd => lit_prod p | _ => None end.
Lemma literal_paren e : literal (AParen e) = lit_sum e.
Proof. destruct e as [[[]|] [[a | a b] []] []]; reflexivity. Qed.

Lemma chain_snoc A f l x none : l <> [] -> chain A f (l ++ [x]) none = f (chain A f l none) x.
Proof. destruct l as [|y l]; [congruence|]. intros _. cbn [app chain]. rewrite fold_left_app. reflexivity. Qed.

Section PARSER.
  Variable A : arithmetic.
  Hypothesis Hlaw : lawful A.
  Notation Goes := (Goes A).

  Definition gives (r : res (form * list tok * alist)) (st : alist) (x : N A) (rest : list tok) (l : option Z) : Prop :=
    exists f st', r = Ok (f, rest, st') /\ Goes st [f] st' [x] /\ forall k, f = FNum k -> l = Some k.
  Definition p_atomic (a : atomic) : Prop := ok_atomic a -> forall n rest st, wf st -> 9 * sizes (w_atomic a) <= n -> follow 1 rest ->
    gives (factor1 n (w_atomic a ++ rest) st) st (v_atomic A a) rest (literal a).
  Definition p_args (l : args) : Prop := ok_args l -> forall n st0 st acc xs, Goes st0 acc st xs -> 9 * sizes (w_args l) + 4 <= n ->
    exists fs st', expr_list n (w_args l) st acc = Ok (fs, st') /\ Goes st0 fs st' (xs ++ v_args A l).
  Definition p_power (p : power) : Prop := ok_power p -> forall n rest st, wf st -> 9 * sizes (w_power p) + 1 <= n -> follow 2 rest ->
    gives (factor n (w_power p ++ rest) st) st (v_power A p) rest (lit_power p).
  Definition p_prod (p : prod) : Prop := ok_prod p -> forall n rest st, wf st -> 9 * sizes (w_prod p) + 2 <= n -> follow 3 rest ->
    gives (term n (w_prod p ++ rest) st) st (v_prod A p) rest (lit_prod p).
  Definition p_prod_rest (l : prod_rest) : Prop := ok_prod_rest l -> forall rest, follow 3 rest ->
    (forall n f st0 st x, Goes st0 [f] st [x] -> 9 * sizes (w_prod_rest l) + 1 <= n ->
       exists g st', term_outer n f (w_prod_rest l ++ rest) st = Ok (g, rest, st') /\ Goes st0 [g] st' [v_prod_rest A x l] /\
         ((l = PEnd /\ g = f) \/ forall k, g <> FNum k)) /\
    (forall n times fs st0 st xs, xs <> [] -> Goes st0 fs st xs -> 9 * sizes (w_prod_rest l) + 2 <= n ->
       exists g st', term_inner n times fs (w_prod_rest l ++ rest) st = Ok (g, rest, st') /\
         Goes st0 [g] st' [v_prod_rest A (chain A (if times then mul A else div A) xs (one A)) l] /\ forall k, g <> FNum k).
  Definition p_sum (e : sum) : Prop := ok_sum e -> forall n rest st, wf st -> 9 * sizes (w_sum e) + 3 <= n -> follow 4 rest ->
    gives (expr n (w_sum e ++ rest) st) st (v_sum A e) rest (lit_sum e).
  Definition p_sum_rest (l : sum_rest) : Prop := ok_sum_rest l -> forall rest, follow 4 rest ->
    forall n fs st0 st xs, xs <> [] -> Goes st0 fs st xs -> 9 * sizes (w_sum_rest l) + 1 <= n ->
       exists g st', expr_loop n fs (w_sum_rest l ++ rest) st = Ok (g, rest, st') /\
         Goes st0 [g] st' [v_sum_rest A (chain A (add A) xs (lit A 0%Z)) l] /\ forall k, g <> FNum k.

  Lemma Goes_wf st0 fs st xs : Goes st0 fs st xs -> wf st. Proof. intros H. apply H. Qed.
  Lemma Goes_wf0 st0 fs st xs : Goes st0 fs st xs -> wf st0. Proof. intros H. apply H. Qed.
  Lemma xs_snoc (xs : list (N A)) x : xs ++ [x] <> []. Proof. destruct xs; discriminate. Qed.

  Lemma follow_rest l rest : follow 3 rest -> follow 2 (w_prod_rest l ++ rest).
  Proof. destruct l; cbn; intros F; auto. apply (follow_less 2 3); [lia | exact F]. Qed.
  Lemma follow_sum_rest l rest : follow 4 rest -> follow 3 (w_sum_rest l ++ rest).
  Proof. destruct l; cbn; intros F; auto. apply (follow_less 3 4); [lia | exact F]. Qed.

  Lemma sym_case n s rest st : follow 1 rest -> factor1 (S n) (TSym (user s) :: rest) st = Ok (FSym (user s), rest, st).
  Proof. intros F. cbn [factor1]. destruct rest as [|[s' | z | o | l] rest]; cbn in F; try reflexivity. destruct F. Qed.
  Lemma num_case n z rest st : follow 1 rest -> factor1 (S n) (TNum z :: rest) st = Ok (FNum z, rest, st).
  Proof. intros F. cbn [factor1]. destruct rest as [|[s' | z' | o | l] rest]; cbn in F; try reflexivity. destruct F. Qed.

  Lemma parser : (forall a, p_atomic a) /\ (forall l, p_args l) /\ (forall p, p_power p) /\ (forall p, p_prod p) /\
    (forall l, p_prod_rest l) /\ (forall e, p_sum e) /\ (forall l, p_sum_rest l).
  Proof.
    apply infix_i.
    - (* ASym *) intros s _ n rest st W Hn F. destruct n as [|n]; [cbn in Hn; lia|]. cbn [w_atomic app]. rewrite sym_case by exact F.
      exists (FSym (user s)), st. split; [reflexivity|]. split; [|discriminate]. apply Goes_atom; [exact W | reflexivity|].
      intros r. cbn [eval v_atomic]. unfold user. f_equal. lia.
    - (* ANum *) intros z _ n rest st W Hn F. destruct n as [|n]; [cbn in Hn; lia|]. cbn [w_atomic app]. rewrite num_case by exact F.
      exists (FNum z), st. split; [reflexivity|]. split; [|intros k E; injection E as ->; reflexivity]. apply Goes_atom; [exact W | reflexivity|]. reflexivity.
    - (* AParen *) intros e IH Ok0 n rest st W Hn F. cbn [w_atomic sizes] in Hn. rewrite size_list in Hn. destruct n as [|n]; [lia|].
      destruct (IH Ok0 n [] st W) as (f & st' & E & G & L); [lia | exact I|].
      exists f, st'. split; [|split; [exact G|]].
      + cbn [w_atomic app factor1]. rewrite app_nil_r in E. destruct (w_sum_nonempty e) as (t & l & T). rewrite T in *. rewrite E. reflexivity.
      + intros k E'. rewrite literal_paren. auto.
    - (* ACall *) intros s l IH Ok0 n rest st W Hn F. cbn [w_atomic sizes] in Hn. rewrite size_list in Hn. destruct n as [|n]; [lia|].
      destruct (IH Ok0 n st st [] [] (Goes_nil A st W)) as (fs & st1 & E & G); [cbn [size] in Hn; lia|]. cbn [app] in G.
      destruct (letvar_goes A st (FApp (HFun (user s)) fs) st1 (call A s (v_args A l))) as (v & st2 & Ev & Ea & Nk & Gv).
      { pose proof (Goes_app_form A _ _ (HFun (user s)) _ _ G) as G'. cbn [apply] in G'. unfold user at 2 in G'. replace (s + 2 - 2) with s in G' by lia. exact G'. }
      exists v, st2. split; [|split; [exact Gv | intros k E'; destruct (Nk _ E')]].
      cbn [w_atomic app factor1].
      assert (T : exists t l', w_args l = t :: l' /\ t <> TSym 0).
      { destruct l as [[sg p l0] | [sg p l0] m]; cbn [w_args w_sum].
        all: destruct sg as [[]|]; cbn [app]; try (do 2 eexists; split; [reflexivity | discriminate]).
        all: destruct p as [[a | a b] pr]; destruct a; cbn; do 2 eexists; (split; [reflexivity|]); try discriminate; unfold user; intros X; injection X as X; lia. }
      destruct T as (t & l' & T & Nt). rewrite T in *. 
      destruct t as [[|s'] | z | o | sub]; [congruence | | | |]; rewrite E; cbn [bind]; rewrite Ev; reflexivity.
    - (* AAref *) intros s l IH Ok0 n rest st W Hn F. cbn [w_atomic sizes] in Hn. rewrite size_list in Hn. cbn [sizes size] in Hn. destruct n as [|n]; [lia|].
      destruct (IH Ok0 n st st [] [] (Goes_nil A st W)) as (fs & st1 & E & G); [lia|]. cbn [app] in G.
      assert (G0 : Goes st ([FSym (user s)] ++ fs) st1 ([var A s] ++ v_args A l)).
      { eapply Goes_app; [|exact G]. apply Goes_atom; [exact W | reflexivity|]. intros r. cbn [eval]. unfold user. f_equal. lia. }
      destruct (letvar_goes A st (FApp HAref (FSym (user s) :: fs)) st1 (element A (var A s) (v_args A l))) as (v & st2 & Ev & Ea & Nk & Gv).
      { apply (Goes_app_form A _ _ HAref _ _ G0). }
      exists v, st2. split; [|split; [exact Gv | intros k E'; destruct (Nk _ E')]].
      cbn [w_atomic app factor1]. rewrite E. cbn [bind]. rewrite Ev. reflexivity.
    - (* AOne *) intros e IH Ok0 n st0 st acc xs G Hn. cbn [w_args] in *. destruct n as [|n]; [lia|].
      destruct (IH Ok0 n [] st (Goes_wf _ _ _ _ G)) as (f & st' & E & G' & L); [lia | exact I|]. rewrite app_nil_r in E.
      exists (acc ++ [f]), st'. split; [|cbn [v_args]; eapply Goes_app; eauto].
      cbn [expr_list]. destruct (w_sum_nonempty e) as (t & l & T). rewrite T in *. rewrite E. cbn [bind]. destruct n; [lia|]. reflexivity.
    - (* AMore *) intros e IH l IHl [Ok0 [B Ok1]] n st0 st acc xs G Hn. cbn [w_args] in *. rewrite sizes_app in Hn. destruct n as [|n]; [lia|].
      assert (P : 1 <= sizes (w_sum e)). { destruct (w_sum_nonempty e) as (t & l' & ->). cbn [sizes]. pose proof (size_pos t). lia. }
      destruct (IH Ok0 n (w_args l) st (Goes_wf _ _ _ _ G)) as (f & st' & E & G' & L); [lia | |].
      { destruct (w_args_first l) as [rest ->]. apply begins_well_follow. exact B. }
      destruct (IHl Ok1 n st0 st' (acc ++ [f]) (xs ++ [v_sum A e])) as (fs & st'' & E' & G''); [eapply Goes_app; eauto | lia|].
      exists fs, st''. split; [|rewrite <- app_assoc in G''; exact G''].
      cbn [expr_list]. destruct (w_sum_nonempty e) as (t & l' & T). rewrite T in *. cbn [app] in *. rewrite E. cbn [bind]. exact E'.
    - (* POne *) intros a IH Ok0 n rest st W Hn F. cbn [w_power] in *. destruct n as [|n]; [lia|].
      destruct (IH Ok0 n rest st W) as (f & st' & E & G & L); [lia | eapply follow_less; [|exact F]; lia|].
      exists f, st'. split; [|split; [exact G | exact L]]. cbn [factor]. rewrite E. cbn [bind].
      destruct rest as [|[s | z | [] | l] rest]; try reflexivity. cbn in F. lia.
    - (* PPow *) intros a IHa b IHb (Oka & Okb & Nn) n rest st W Hn F. cbn [w_power] in *. rewrite sizes_app in Hn. cbn [sizes size] in Hn. destruct n as [|n]; [lia|].
      destruct (IHa Oka n (TOp Power :: w_atomic b ++ rest) st W) as (f & st1 & E1 & G1 & L1); [lia | cbn; lia|].
      destruct (IHb Okb n rest st1 (Goes_wf _ _ _ _ G1)) as (g & st2 & E2 & G2 & L2); [lia | eapply follow_less; [|exact F]; lia|].
      pose proof (Goes_app A _ _ _ _ _ _ _ G1 G2) as G12. cbn [app] in G12.
      assert (X : exists h st', factor (S n) ((w_atomic a ++ TOp Power :: w_atomic b) ++ rest) st = Ok (h, rest, st') /\
                    Goes st [h] st' [pow A (v_atomic A a) (v_atomic A b)] /\ forall k, h <> FNum k).
      { assert (D : exists h st', Goes st [h] st' [pow A (v_atomic A a) (v_atomic A b)] /\ (forall k, h <> FNum k) /\
          match g with
              | FNum k =>
                  if Z.ltb k 10 then
                    if atom f then let '(v, st) := letvar st2 (FApp HMul (repeat f (Z.to_nat k))) in Ok (v, rest, st)
                    else Ok (FTemp f (Z.to_nat k), rest, st2)
                  else Ok (FApp HExpt [f; g], rest, st2)
              | _ => Ok (FApp HExpt [f; g], rest, st2)
              end = Ok (h, rest, st')).
        { assert (Ex : Goes st [FApp HExpt [f; g]] st2 [pow A (v_atomic A a) (v_atomic A b)]) by apply (Goes_app_form A _ _ HExpt _ _ G12).
          destruct g as [s | k | m | h l | h m]; try (exists (FApp HExpt [f; FSym s]), st2; split; [exact Ex | split; [discriminate | reflexivity]]);
            try (do 2 eexists; split; [exact Ex | split; [discriminate | reflexivity]]).
          destruct (Z.ltb k 10) eqn:Ek; [|do 2 eexists; split; [exact Ex | split; [discriminate | reflexivity]]].
          apply Z.ltb_lt in Ek. rewrite (L2 k eq_refl) in Nn. cbn in Nn.
          assert (Vb : v_atomic A b = lit A k).
          { destruct (exists_consistent A st2 (Goes_wf _ _ _ _ G2)) as [r C]. destruct G2 as (_ & _ & _ & _ & V). specialize (V r C). cbn in V. congruence. }
          assert (Pw : pow A (v_atomic A a) (v_atomic A b) = product A (repeat (v_atomic A a) (Z.to_nat k))).
          { rewrite Vb. destruct Hlaw as [_ Hp]. rewrite <- Hp by lia. rewrite Z2Nat.id by lia. reflexivity. }
          assert (Gf : Goes st [f] st2 [v_atomic A a]).
          { eapply Goes_one; [| | exact G12]; cbn [flat_map gens app map]; [intros w M; apply in_app_iff; auto | intros r Er; congruence]. }
          rewrite Pw. destruct (atom f) eqn:Af.
          - destruct (letvar_goes A st (FApp HMul (repeat f (Z.to_nat k))) st2 (product A (repeat (v_atomic A a) (Z.to_nat k)))) as (v & st3 & Ev & _ & Nk & Gv).
            { apply (Goes_app_form A _ _ HMul _ _ (Goes_repeat A _ _ _ _ (Z.to_nat k) Gf)). }
            exists v, st3. rewrite Ev. split; [exact Gv | split; [exact Nk | reflexivity]].
          - exists (FTemp f (Z.to_nat k)), st2. split; [|split; [discriminate | reflexivity]].
            eapply Goes_one; [| | exact Gf]; [cbn; intros w M; rewrite app_nil_r; exact M|]. intros r Er. cbn in Er. injection Er as Er. cbn [eval]. rewrite Er. reflexivity. }
        destruct D as (h & st' & G & Nk & D). exists h, st'. split; [|split; [exact G | exact Nk]].
        rewrite <- app_assoc. cbn [app factor]. rewrite E1. cbn [bind]. rewrite E2. cbn [bind]. exact D. }
      destruct X as (h & st' & E & G & Nk). exists h, st'. split; [exact E | split; [exact G | intros k E'; destruct (Nk _ E')]].
    - (* Prod *) intros p IHp l IHl [Okp Okl] n rest st W Hn F. cbn [w_prod] in *. rewrite sizes_app in Hn. destruct n as [|n]; [lia|].
      destruct (IHp Okp n (w_prod_rest l ++ rest) st W) as (f & st1 & E1 & G1 & L1); [lia | apply follow_rest; exact F|].
      destruct (IHl Okl rest F) as [Ho _]. destruct (Ho n f st st1 _ G1) as (g & st2 & E2 & G2 & L2); [lia|].
      exists g, st2. split; [|split; [exact G2|]].
      + rewrite <- app_assoc. cbn [term]. rewrite E1. cbn [bind]. exact E2.
      + intros k Ek. destruct L2 as [[-> ->] | L2]; [cbn [lit_prod]; auto | destruct (L2 _ Ek)].
    - (* PEnd *) intros _ rest F. cbn [w_prod_rest app sizes v_prod_rest].
      assert (Ho : forall n f st, 1 <= n -> term_outer n f rest st = Ok (f, rest, st)).
      { intros [|n] f st Hn; [lia|]. cbn [term_outer]. destruct rest as [|[s | z | [] | l] rest]; try reflexivity; cbn in F; lia. }
      split.
      + intros n f st0 st x G Hn. exists f, st. split; [apply Ho; lia|]. split; [exact G | left; auto].
      + intros n times fs st0 st xs Nx G Hn. destruct n as [|n]; [lia|].
        exists (FApp (if times then HMul else HDiv) fs), st. split; [|split; [|discriminate]].
        * cbn [term_inner]. destruct rest as [|[s | z | [] | l] rest]; try (apply Ho; lia); cbn in F; lia.
        * destruct times; [apply (Goes_app_form A _ _ HMul _ _ G) | apply (Goes_app_form A _ _ HDiv _ _ G)].
    - (* PMul *) intros p IHp l IHl [Okp Okl] rest F. destruct (IHl Okl rest F) as [_ Hi]. cbn [w_prod_rest app sizes v_prod_rest]. rewrite sizes_app. cbn [size].
      assert (Hsame : forall n fs st0 st xs, xs <> [] -> Goes st0 fs st xs -> 9 * (sizes (w_power p) + sizes (w_prod_rest l)) + 9 <= n ->
        exists g st', term_inner n true fs (TOp Times :: (w_power p ++ w_prod_rest l) ++ rest) st = Ok (g, rest, st') /\
          Goes st0 [g] st' [v_prod_rest A (mul A (chain A (mul A) xs (one A)) (v_power A p)) l] /\ forall k, g <> FNum k).
      { intros n fs st0 st xs Nx G Hn. destruct n as [|n]; [lia|].
        destruct (IHp Okp n (w_prod_rest l ++ rest) st (Goes_wf _ _ _ _ G)) as (f & st1 & E1 & G1 & L1); [lia | apply follow_rest; exact F|].
        destruct (Hi n true (fs ++ [f]) st0 st1 (xs ++ [v_power A p])) as (g & st2 & E2 & G2 & L2); [apply xs_snoc | eapply Goes_app; eauto | lia|].
        exists g, st2. cbn iota in G2. rewrite chain_snoc in G2 by exact Nx. split; [|split; [exact G2 | exact L2]].
        cbn [term_inner]. cbn iota. rewrite <- app_assoc, E1. cbn [bind]. exact E2. }
      assert (Ho : forall n f st0 st x, Goes st0 [f] st [x] -> 9 * (sizes (w_power p) + sizes (w_prod_rest l)) + 10 <= n ->
        exists g st', term_outer n f (TOp Times :: (w_power p ++ w_prod_rest l) ++ rest) st = Ok (g, rest, st') /\
          Goes st0 [g] st' [v_prod_rest A (mul A x (v_power A p)) l] /\ forall k, g <> FNum k).
      { intros n f st0 st x G Hn. destruct n as [|n]; [lia|]. destruct (Hsame n [f] st0 st [x]) as (g & st' & E & G' & L'); [discriminate | exact G | lia|].
        exists g, st'. split; [exact E | split; [exact G' | exact L']]. }
      split.
      + intros n f st0 st x G Hn. destruct (Ho n f st0 st x G) as (g & st' & E & G' & L'); [lia|]. exists g, st'. split; [exact E | split; [exact G' | right; exact L']].
      + intros n times fs st0 st xs Nx G Hn. destruct times.
        * apply (Hsame n fs st0 st xs Nx G); lia.
        * destruct n as [|n]; [lia|]. apply (Ho n _ st0 st _ (Goes_app_form A _ _ HDiv _ _ G)); lia.
    - (* PDiv *) intros p IHp l IHl [Okp Okl] rest F. destruct (IHl Okl rest F) as [_ Hi]. cbn [w_prod_rest app sizes v_prod_rest]. rewrite sizes_app. cbn [size].
      assert (Hsame : forall n fs st0 st xs, xs <> [] -> Goes st0 fs st xs -> 9 * (sizes (w_power p) + sizes (w_prod_rest l)) + 9 <= n ->
        exists g st', term_inner n false fs (TOp Over :: (w_power p ++ w_prod_rest l) ++ rest) st = Ok (g, rest, st') /\
          Goes st0 [g] st' [v_prod_rest A (div A (chain A (div A) xs (one A)) (v_power A p)) l] /\ forall k, g <> FNum k).
      { intros n fs st0 st xs Nx G Hn. destruct n as [|n]; [lia|].
        destruct (IHp Okp n (w_prod_rest l ++ rest) st (Goes_wf _ _ _ _ G)) as (f & st1 & E1 & G1 & L1); [lia | apply follow_rest; exact F|].
        destruct (Hi n false (fs ++ [f]) st0 st1 (xs ++ [v_power A p])) as (g & st2 & E2 & G2 & L2); [apply xs_snoc | eapply Goes_app; eauto | lia|].
        exists g, st2. cbn iota in G2. rewrite chain_snoc in G2 by exact Nx. split; [|split; [exact G2 | exact L2]].
        cbn [term_inner]. cbn iota. rewrite <- app_assoc, E1. cbn [bind]. exact E2. }
      assert (Ho : forall n f st0 st x, Goes st0 [f] st [x] -> 9 * (sizes (w_power p) + sizes (w_prod_rest l)) + 10 <= n ->
        exists g st', term_outer n f (TOp Over :: (w_power p ++ w_prod_rest l) ++ rest) st = Ok (g, rest, st') /\
          Goes st0 [g] st' [v_prod_rest A (div A x (v_power A p)) l] /\ forall k, g <> FNum k).
      { intros n f st0 st x G Hn. destruct n as [|n]; [lia|]. destruct (Hsame n [f] st0 st [x]) as (g & st' & E & G' & L'); [discriminate | exact G | lia|].
        exists g, st'. split; [exact E | split; [exact G' | exact L']]. }
      split.
      + intros n f st0 st x G Hn. destruct (Ho n f st0 st x G) as (g & st' & E & G' & L'); [lia|]. exists g, st'. split; [exact E | split; [exact G' | right; exact L']].
      + intros n times fs st0 st xs Nx G Hn. destruct times.
        * destruct n as [|n]; [lia|]. apply (Ho n _ st0 st _ (Goes_app_form A _ _ HMul _ _ G)); lia.
        * apply (Hsame n fs st0 st xs Nx G); lia.
    - (* Sum *) intros sg p IHp l IHl [Okp Okl] n rest st W Hn F. cbn [w_sum] in *. rewrite !sizes_app in Hn. destruct n as [|n]; [lia|].
      destruct (IHp Okp n (w_sum_rest l ++ rest) st W) as (f & st1 & E1 & G1 & L1); [clear - Hn; destruct sg as [[]|]; cbn [sizes size] in Hn; lia | apply follow_sum_rest; exact F|].
      set (f' := match sg with Some true => FApp HNeg [f] | _ => f end).
      set (x' := match sg with Some true => neg A (v_prod A p) | _ => v_prod A p end).
      assert (G1' : Goes st [f'] st1 [x']) by (subst f' x'; destruct sg as [[]|]; try exact G1; apply (Goes_app_form A _ _ HNeg _ _ G1)).
      assert (Dn : exists g st2, match w_sum_rest l ++ rest with
        | TOp Plus :: _ | TOp Minus :: _ => expr_loop n [f'] (w_sum_rest l ++ rest) st1
        | _ => Ok (f', w_sum_rest l ++ rest, st1) end = Ok (g, rest, st2) /\ Goes st [g] st2 [v_sum_rest A x' l] /\ ((l = SEnd /\ g = f') \/ forall k, g <> FNum k)).
      { destruct l as [|q l | q l].
        - exists f', st1. cbn [w_sum_rest app v_sum_rest]. split; [|split; [exact G1' | left; auto]].
          destruct rest as [|[s | z | [] | l] rest]; try reflexivity; cbn in F; lia.
        - destruct (IHl Okl rest F n [f'] st st1 [x']) as (g & st2 & E2 & G2 & L2); [discriminate | exact G1' | clear - Hn; destruct sg as [[]|]; cbn [sizes size] in Hn; lia|].
          exists g, st2. split; [exact E2 | split; [exact G2 | right; exact L2]].
        - destruct (IHl Okl rest F n [f'] st st1 [x']) as (g & st2 & E2 & G2 & L2); [discriminate | exact G1' | clear - Hn; destruct sg as [[]|]; cbn [sizes size] in Hn; lia|].
          exists g, st2. split; [exact E2 | split; [exact G2 | right; exact L2]]. }
      destruct Dn as (g & st2 & E2 & G2 & L2). exists g, st2. split; [|split; [exact G2|]].
      + destruct (w_prod_nonempty p) as (t & l' & T & Nt).
        assert (H : expr (S n) ((match sg with Some true => [TOp Minus] | Some false => [TOp Plus] | None => [] end) ++ w_prod p ++ w_sum_rest l ++ rest) st =
          bind (term n (w_prod p ++ w_sum_rest l ++ rest) st) (fun '(lf, exp, st) =>
            let lf := match sg with Some true => FApp HNeg [lf] | _ => lf end in
            match exp with TOp Plus :: _ | TOp Minus :: _ => expr_loop n [lf] exp st | _ => Ok (lf, exp, st) end)).
        { cbn [expr]. destruct sg as [[]|]; cbn [app]; try reflexivity. rewrite T. cbn [app]. destruct t as [s | z | o | ll]; try reflexivity. congruence. }
        rewrite <- !app_assoc. rewrite H, E1. cbn [bind]. exact E2.
      + intros k Ek. destruct L2 as [[-> ->] | L2]; [|destruct (L2 _ Ek)]. subst f'. destruct sg as [[]|]; cbn [lit_sum]; [discriminate Ek | auto | auto].
    - (* SEnd *) intros _ rest F n fs st0 st xs Nx G Hn. cbn [w_sum_rest app sizes v_sum_rest] in *. destruct n as [|n]; [lia|].
      exists (FApp HAdd fs), st. split; [|split; [apply (Goes_app_form A _ _ HAdd _ _ G) | discriminate]].
      cbn [expr_loop]. destruct rest as [|[s | z | [] | l] rest]; try reflexivity; cbn in F; lia.
    - (* SAdd *) intros p IHp l IHl [Okp Okl] rest F n fs st0 st xs Nx G Hn. cbn [w_sum_rest app sizes v_sum_rest] in *. rewrite sizes_app in Hn. cbn [size] in Hn.
      destruct n as [|n]; [lia|].
      destruct (IHp Okp n (w_sum_rest l ++ rest) st (Goes_wf _ _ _ _ G)) as (f & st1 & E1 & G1 & L1); [lia | apply follow_sum_rest; exact F|].
      destruct (IHl Okl rest F n (fs ++ [f]) st0 st1 (xs ++ [v_prod A p])) as (g & st2 & E2 & G2 & L2); [apply xs_snoc | eapply Goes_app; eauto | lia|].
      exists g, st2. rewrite chain_snoc in G2 by exact Nx. split; [|split; [exact G2 | exact L2]].
      cbn [expr_loop]. rewrite <- app_assoc, E1. cbn [bind]. exact E2.
    - (* SSub *) intros p IHp l IHl [Okp Okl] rest F n fs st0 st xs Nx G Hn. cbn [w_sum_rest app sizes v_sum_rest] in *. rewrite sizes_app in Hn. cbn [size] in Hn.
      destruct n as [|n]; [lia|].
      destruct (IHp Okp n (w_sum_rest l ++ rest) st (Goes_wf _ _ _ _ G)) as (f & st1 & E1 & G1 & L1); [lia | apply follow_sum_rest; exact F|].
      destruct (IHl Okl rest F n (fs ++ [FApp HNeg [f]]) st0 st1 (xs ++ [neg A (v_prod A p)])) as (g & st2 & E2 & G2 & L2);
        [apply xs_snoc | eapply Goes_app; [exact G | apply (Goes_app_form A _ _ HNeg _ _ G1)] | lia|].
      exists g, st2. rewrite chain_snoc in G2 by exact Nx. destruct Hlaw as [Hs _]. rewrite Hs. split; [|split; [exact G2 | exact L2]].
      cbn [expr_loop]. rewrite <- app_assoc, E1. cbn [bind]. exact E2.
  Qed.

  Lemma translate c : ok_comparison c -> exists f st, rel_expr (9 * sizes (w_comparison c) + 9) (w_comparison c) [] = Ok (f, [], st) /\ Goes [] [f] st [v_comparison A c].
  Proof.
    destruct parser as (_ & _ & _ & _ & _ & Hs & _).
    assert (W : wf []) by (intros [|i] f c0 H; discriminate H).
    destruct c as [e | r a b]; cbn [ok_comparison w_comparison v_comparison].
    - intros Ok0. destruct (Hs e Ok0 (9 * sizes (w_sum e) + 9) [] [] W) as (f & st & E & G & _); [lia | exact I|]. rewrite app_nil_r in E.
      exists f, st. split; [|exact G]. unfold rel_expr. rewrite E. reflexivity.
    - intros [Oka Okb]. rewrite sizes_app. cbn [sizes size]. set (n := 9 * (sizes (w_sum a) + (1 + sizes (w_sum b))) + 9).
      destruct (Hs a Oka n (TOp (Rel r) :: w_sum b) [] W) as (f & st & E & G & _); [lia | cbn; lia|].
      destruct (Hs b Okb n [] st (Goes_wf _ _ _ _ G)) as (g & st' & E' & G' & _); [lia | exact I|]. rewrite app_nil_r in E'.
      exists (FApp (HRel r) [f; g]), st'. split.
      + unfold rel_expr. rewrite E. cbn [bind]. rewrite E'. reflexivity.
      + apply (Goes_app_form A _ _ (HRel r) _ _ (Goes_app A _ _ _ _ _ _ _ G G')).
  Qed.
End PARSER.
