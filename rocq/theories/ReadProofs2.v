(** Proofs for C41: nested data read back. *)
From Verif Require Import Word BigModel BigSpec IntTextModel IntTextProofs ReadModel ReadSpec ReadProofs.
From Coq Require Import Lia.

(** ** Induction over data *)
Section Ind.
  Variable P : datum -> Prop.
  Hypothesis HI : forall o, P (DInt o).
  Hypothesis HF : forall t, P (DFlt t).
  Hypothesis HS : forall kw n, P (DSym kw n).
  Hypothesis HT : forall s, P (DStr s).
  Hypothesis HV : forall l, Forall P l -> P (DVec l).
  Hypothesis HC : forall a d, P a -> P d -> P (DCons a d).
  Fixpoint datum_ind' (x : datum) : P x :=
    match x with
    | DInt o => HI o
    | DFlt t => HF t
    | DSym kw n => HS kw n
    | DStr s => HT s
    | DVec l => HV l ((fix all l : Forall P l :=
                         match l with [] => Forall_nil P | e :: r => Forall_cons e (datum_ind' e) (all r) end) l)
    | DCons a d => HC a d (datum_ind' a) (datum_ind' d)
    end.
End Ind.

(** ** The loops of the printer by themselves *)
Section Tail.
  Variables (base : Z) (down : bool) (plen lev : Z).
  Fixpoint prtail (n : Z) (d : datum) {struct d} : option (list Z) :=
    match d with
    | DCons b d' =>
        if n - 1 <=? 0 then Some [32; 46; 46; 46]
        else oapp (Some [32]) (oapp (prin1 base down plen lev b) (prtail (n - 1) d'))
    | _ => if is_sym d NIL then Some []
           else oapp (Some [32; 46; 32]) (prin1 base down plen lev d)
    end.
  Fixpoint prelems (l : list datum) : option (list Z) :=
    match l with
    | [] => Some []
    | e :: r => oapp (prin1 base down plen lev e)
                     (match r with [] => Some [] | _ => oapp (Some [32]) (prelems r) end)
    end.
End Tail.

Definition prwhole base down plen lev a d : option (list Z) :=
  oapp (Some [40]) (oapp (prin1 base down plen (lev - 1) a) (oapp (prtail base down plen (lev - 1) plen d) (Some [41]))).

Lemma prin1_cons base down plen lev a d :
  prin1 base down plen lev (DCons a d) =
  if lev <=? 0 then Some [35]
  else match d with
       | DCons b e =>
           if is_sym a QUOTE && is_sym e NIL then oapp (Some [39]) (prin1 base down plen (lev - 2) b)
           else if is_sym a FUNCTION && is_sym e NIL then oapp (Some [35; 39]) (prin1 base down plen (lev - 2) b)
           else prwhole base down plen lev a d
       | _ => prwhole base down plen lev a d
       end.
Proof. destruct d; reflexivity. Qed.

Lemma prin1_vec base down plen lev l : 0 < plen ->
  prin1 base down plen lev (DVec l) =
  if lev <=? 0 then Some [35]
  else oapp (Some [35; 40]) (oapp (prelems base down plen (lev - 1) l) (Some [41])).
Proof.
  intros H. cbn [prin1]. destruct (lev <=? 0); [reflexivity|].
  destruct (Z.leb_spec plen 0); [lia|]. reflexivity.
Qed.

Lemma oapp_some o p t : oapp o p = Some t -> exists a b, o = Some a /\ p = Some b /\ t = a ++ b.
Proof. destruct o as [a|], p as [b|]; cbn [oapp]; intros H; inversion H. eauto. Qed.

Lemma is_sym_eq x name : is_sym x (DSym false name) = true -> x = DSym false name.
Proof.
  destruct x as [| |kw n| | |]; cbn [is_sym]; try discriminate. destruct kw; [discriminate|].
  destruct (list_eq_dec Z.eq_dec n name); [subst; reflexivity|discriminate].
Qed.

(** ** How the text of an element begins *)
Definition starts (txt : list Z) : Prop :=
  exists c t, txt = c :: t /\ c < 128 /\ syntax c <> White /\ c <> 59 /\ c <> 41 /\
    (c = 46 -> exists d t', t = d :: t' /\ d < 128 /\ syntax d = Constituent).

Lemma starts_next txt rest : starts txt -> exists c t, txt = c :: t /\ nextch (txt ++ rest) = NCh c (t ++ rest) /\ c <> 41 /\
    (c = 46 -> exists d t', t = d :: t' /\ d < 128 /\ syntax d = Constituent).
Proof.
  intros (c & t & -> & L & W & N1 & N2 & D). exists c, t. split; [reflexivity|]. split; [|split; assumption].
  unfold nextch. cbn [app skip]. destruct (Z.eqb_spec c 255); [lia|]. destruct (Z.leb_spec 128 c); [lia|].
  apply Z.eqb_neq in N1. rewrite N1. destruct (syntax c); try reflexivity. congruence.
Qed.

(** Unfolding equations *)
Lemma read_list_S base f acc inp : read_list base (S f) acc inp =
        match nextch inp with
        | NUndef => Undef
        | NEof r => Val (build acc NIL) r
        | NCh c r =>
            if c =? 41 then Val (build acc NIL) r
            else if c =? 46 then
              match r with
              | [] => Undef
              | d :: _ =>
                  if 128 <=? d then Undef
                  else match syntax d with
                       | Constituent =>
                           match read2 base (read2_loop false false [46] 1 None r) with
                           | Val x r' => read_list base f (x :: acc) r'
                           | e => e
                           end
                       | White =>
                           match read1 base f r with
                           | Val x r' =>
                               match nextch r' with
                               | NCh c' r'' => if c' =? 41 then Val (build acc x) r'' else Err
                               | NEof _ => Err
                               | NUndef => Undef
                               end
                           | Unb _ => Unsup
                           | Eof => Unsup
                           | e => e
                           end
                       | _ => Err
                       end
              end
            else
              match read1 base f (c :: r) with
              | Val x r' => read_list base f (x :: acc) r'
              | Unb r' => read_list base f acc r'
              | Eof => Val (build acc NIL) []
              | e => e
              end
        end.
Proof. reflexivity. Qed.

Lemma read_vector_S base f acc inp : read_vector base (S f) acc inp =
        match nextch inp with
        | NUndef => Undef
        | NEof r => Val (DVec (rev acc)) r
        | NCh c r =>
            if c =? 41 then Val (DVec (rev acc)) r
            else
              match read1 base f (c :: r) with
              | Val x r' => read_vector base f (x :: acc) r'
              | Unb _ => Unsup
              | Eof => Unsup
              | e => e
              end
        end.
Proof. reflexivity. Qed.

Lemma list_step base f acc txt rest x : starts txt -> read1 base f (txt ++ rest) = Val x rest ->
  read_list base (S f) acc (txt ++ rest) = read_list base f (x :: acc) rest.
Proof.
  intros St R. destruct (starts_next txt rest St) as (c & t & E & N & N41 & Dot).
  rewrite read_list_S. rewrite N. apply Z.eqb_neq in N41. rewrite N41.
  destruct (Z.eqb_spec c 46) as [E46|N46].
  - destruct (Dot E46) as (d & t' & E2 & Ld & Sd). subst c t. cbn [app].
    destruct (Z.leb_spec 128 d); [lia|]. rewrite Sd.
    subst txt. destruct f as [|f]; [discriminate R|]. cbn [app] in R. rewrite read1_const in R by reflexivity.
    change (to_upper 46) with 46 in R. change (package_marker 46) with false in R. cbv iota in R.
    rewrite R. reflexivity.
  - subst txt. cbn [app] in R. rewrite R. reflexivity.
Qed.

Lemma vector_step base f acc txt rest x : starts txt -> read1 base f (txt ++ rest) = Val x rest ->
  read_vector base (S f) acc (txt ++ rest) = read_vector base f (x :: acc) rest.
Proof.
  intros St R. destruct (starts_next txt rest St) as (c & t & E & N & N41 & Dot).
  rewrite read_vector_S. rewrite N. apply Z.eqb_neq in N41. rewrite N41.
  subst txt. cbn [app] in R. rewrite R. reflexivity.
Qed.

Lemma list_white base f acc r : read_list base f acc (32 :: r) = read_list base f acc r.
Proof. destruct f; reflexivity. Qed.
Lemma vector_white base f acc r : read_vector base f acc (32 :: r) = read_vector base f acc r.
Proof. destruct f; reflexivity. Qed.
Lemma list_end base f acc rest : read_list base (S f) acc (41 :: rest) = Val (build acc NIL) rest.
Proof. reflexivity. Qed.
Lemma vector_end base f acc rest : read_vector base (S f) acc (41 :: rest) = Val (DVec (rev acc)) rest.
Proof. reflexivity. Qed.

(** ** Integers *)
Lemma upper_digit_const base c : 2 <= base <= 36 -> is_digit base (to_upper c) = true ->
  syntax c = Constituent /\ c <> 58 /\ 48 <= c < 128.
Proof.
  intros Hb. unfold is_digit, to_upper. intros H.
  assert (R : 48 <= c <= 57 \/ 65 <= c <= 90 \/ 97 <= c <= 122).
  { destruct (Z.leb_spec 97 c); destruct (Z.leb_spec c 122); cbn [andb] in H;
      repeat match type of H with context [if ?b then _ else _] => destruct b eqn:? end; try discriminate H; zb; lia. }
  split; [|lia]. apply syntax_const; [|lia]. apply chartype_const'. lia.
Qed.

Lemma dropdigits_all base t : forallb (is_digit base) t = true -> dropdigits base t = [].
Proof.
  induction t as [|c t IH]; [reflexivity|]. cbn [forallb dropdigits]. intros H. apply andb_true_iff in H. destruct H as [A B].
  rewrite A. apply IH; exact B.
Qed.

Lemma read1_integer base txt o f rest : 2 <= base <= 36 -> read_integer_token base txt = Some o -> delimiter rest ->
  read1 base (S f) (txt ++ rest) = Val (DInt o) rest /\ starts txt.
Proof.
  intros Hb R D. unfold read_integer_token in R.
  destruct (Nat.leb_spec MAXTOKENLENGTH (length txt)) as [X|L]; [discriminate R|]. unfold MAXTOKENLENGTH in L.
  destruct txt as [|c t]; [discriminate R|].
  cbn [map] in R.
  assert (C : syntax c = Constituent /\ c <> 58 /\ c < 128 /\ c <> 46 /\
              Forall (fun c => syntax c = Constituent /\ c <> 58) t /\
              classify base (map to_upper (c :: t)) = CInt /\ readint base (map to_upper (c :: t)) = Some o).
  { destruct ((to_upper c =? 43) || (to_upper c =? 45)) eqn:Sg.
    - assert (Ec : c = 43 \/ c = 45).
      { unfold to_upper in Sg. apply orb_true_iff in Sg.
        destruct (Z.leb_spec 97 c); destruct (Z.leb_spec c 122); cbn [andb] in Sg; destruct Sg as [Sg|Sg]; zb; lia. }
      destruct t as [|d t]; [discriminate R|]. cbn [map] in R.
      destruct (forallb (is_digit base) (to_upper d :: map to_upper t)) eqn:F; [|discriminate R].
      split; [destruct Ec; subst c; reflexivity|]. split; [lia|]. split; [lia|]. split; [lia|].
      split.
      + apply Forall_forall. intros x Hx.
        assert (is_digit base (to_upper x) = true).
        { rewrite forallb_forall in F. apply F. change (to_upper d :: map to_upper t) with (map to_upper (d :: t)). apply in_map. exact Hx. }
        destruct (upper_digit_const base x Hb H) as (A & B & _). auto.
      + split; [|exact R]. cbn [map classify]. unfold is_sign. rewrite Sg. unfold classify_body.
        rewrite (dropdigits_all base _ F). cbn [forallb] in F. apply andb_true_iff in F. destruct F as [F1 _]. rewrite F1. reflexivity.
    - cbv beta iota in R.
      destruct (forallb (is_digit base) (to_upper c :: map to_upper t)) eqn:F; [|discriminate R].
      assert (A0 : forall x, In x (c :: t) -> syntax x = Constituent /\ x <> 58 /\ 48 <= x < 128).
      { intros x Hx. apply (upper_digit_const base); auto. rewrite forallb_forall in F. apply F.
        change (to_upper c :: map to_upper t) with (map to_upper (c :: t)). apply in_map. exact Hx. }
      destruct (A0 c (or_introl eq_refl)) as (A & B & C0).
      split; [exact A|]. split; [exact B|]. split; [lia|]. split; [lia|]. split.
      + apply Forall_forall. intros x Hx. destruct (A0 x (or_intror Hx)) as (A' & B' & _). auto.
      + split; [|exact R].
        pose proof F as F'. cbn [forallb] in F'. apply andb_true_iff in F'. destruct F' as [F1 _].
        cbn [map classify]. unfold is_sign. rewrite Sg.
        assert (N46 : to_upper c =? 46 = false).
        { apply Z.eqb_neq. intros Y. rewrite Y in F1. unfold is_digit in F1. change (46 <? 48) with true in F1. discriminate F1. }
        rewrite N46. unfold classify_body. rewrite (dropdigits_all base _ F), F1. reflexivity. }
  destruct C as (S1 & N58 & L128 & N46 & Ft & K & Ri).
  split.
  - cbn [app]. rewrite read1_const by exact S1. unfold package_marker. apply Z.eqb_neq in N58. rewrite N58.
    cbn [length] in L. rewrite read2_loop_plain by (auto; lia). cbn [rev app].
    change (to_upper c :: map to_upper t) with (map to_upper (c :: t)). cbn [read2]. rewrite K, Ri. reflexivity.
  - exists c, t. split; [reflexivity|]. split; [exact L128|]. split; [congruence|]. split; [intros ->; discriminate S1|].
    split; [intros ->; discriminate S1|]. intros ->. congruence.
Qed.

(** ** Symbols as elements *)
Lemma symbol_starts base down kw name txt : 2 <= base <= 36 -> element_name_ok base kw name ->
  printsym base down kw name = Some txt -> starts txt.
Proof.
  intros Hb ((Fc & Ln & Lb & Nn) & Nd) Pr. unfold printsym in Pr.
  destruct (name_loop (negb (escape base name) && down) name 0) as [t|] eqn:NL; [|discriminate Pr].
  inversion Pr; subst txt; clear Pr.
  destruct kw.
  { exists 58, (if escape base name then [124] ++ t ++ [124] else t). split; [reflexivity|]. split; [lia|].
    split; [vm_compute; discriminate|]. split; [lia|]. split; [lia|]. intros X; discriminate X. }
  destruct (escape base name) eqn:E.
  { exists 124, (t ++ [124]). split; [reflexivity|]. split; [lia|]. split; [vm_compute; discriminate|]. split; [lia|].
    split; [lia|]. intros X; discriminate X. }
  cbn [app]. cbn [negb] in NL. rewrite Bool.andb_true_l in NL.
  unfold escape in E. apply orb_false_iff in E. destruct E as [E1 E2].
  assert (Fe : forall c, In c name -> syntax c = Constituent /\ c <> 58 /\ c <> 124 /\ islower c = false).
  { intros c Hc. apply escape_char_no. destruct (escape_char c) eqn:X; [|reflexivity].
    exfalso. assert (existsb escape_char name = true) by (apply existsb_exists; exists c; auto). congruence. }
  assert (Nb : ~ In 124 name).
  { intros X. destruct (Fe 124 X) as (_ & _ & Y & _). congruence. }
  rewrite (name_loop_nobar down name Nb) in NL. inversion NL; subst t; clear NL.
  destruct name as [|c r]; [discriminate E2|].
  destruct (Nn eq_refl) as [_ H128]. destruct (Nd eq_refl) as [N46 Hd].
  assert (Low : forall x, x < 128 -> to_lower x < 128).
  { intros x Hx. unfold to_lower. destruct (Z.leb_spec 65 x); destruct (Z.leb_spec x 90); cbn [andb]; lia. }
  assert (Lc : forall x, In x (c :: r) -> syntax (if down then to_lower x else x) = Constituent).
  { intros x Hx. destruct (Fe x Hx) as (A & B & _). destruct down; [apply lower_const|]; auto. }
  cbn [map].
  exists (if down then to_lower c else c), (map (fun x => if down then to_lower x else x) r).
  split; [reflexivity|]. pose proof (H128 c r eq_refl) as Hc.
  split; [destruct down; auto|].
  pose proof (Lc c (or_introl eq_refl)) as Sc.
  split; [rewrite Sc; discriminate|].
  split; [intros X; rewrite X in Sc; discriminate Sc|].
  split; [intros X; rewrite X in Sc; discriminate Sc|].
  intros E46. assert (Ec : c = 46).
  { destruct down; [|exact E46]. unfold to_lower in E46. destruct (Z.leb_spec 65 c); destruct (Z.leb_spec c 90); cbn [andb] in E46; lia. }
  subst c. destruct r as [|d r]; [congruence|].
  exists (if down then to_lower d else d), (map (fun x => if down then to_lower x else x) r).
  split; [reflexivity|]. pose proof (Hd d r eq_refl). split; [destruct down; auto|].
  apply Lc. right. left. reflexivity.
Qed.

(** ** Main induction *)
Definition tdepth (d : datum) : Z := match d with DCons _ _ => depth d | _ => 1 + depth d end.

Lemma depth_cons a d : depth (DCons a d) = Z.max (2 + depth a) (tdepth d).
Proof. destruct d; reflexivity. Qed.

Lemma depth_pos x : 1 <= depth x.
Proof.
  induction x as [| | | |l IH|a d IHa IHd] using datum_ind'; try (cbn [depth]; lia).
  - cbn [depth]. induction l as [|e r IHr]; [lia|]. inversion IH; subst. specialize (IHr H2). lia.
Qed.

Lemma conses_nonneg x : 0 <= conses x.
Proof. induction x using datum_ind'; cbn [conses]; lia. Qed.

Section Main.
  Variables (base : Z) (down : bool) (plen : Z).
  Hypothesis Hb : 2 <= base <= 21.
  Hypothesis Hp : 0 < plen.

  Definition rt (x : datum) : Prop := forall lev txt rest fuel,
    datum_ok base down x -> depth x <= lev -> longest x <= plen ->
    prin1 base down plen lev x = Some txt -> delimiter rest -> (2 * length txt <= fuel)%nat ->
    read1 base fuel (txt ++ rest) = Val x rest /\ starts txt.

  Definition tail_rt (x : datum) : Prop := forall lev n txt rest acc fuel,
    datum_ok base down x -> tdepth x <= lev + 1 -> conses x < n -> longest x <= plen ->
    prtail base down plen lev n x = Some txt -> (2 * length txt + 2 <= fuel)%nat ->
    read_list base fuel acc (txt ++ 41 :: rest) = Val (build acc x) rest /\ delimiter (txt ++ 41 :: rest).

  Lemma starts_len txt : starts txt -> (1 <= length txt)%nat.
  Proof. intros (c & t & -> & _). cbn [length]. lia. Qed.

  (** The tail loop on something that is not a cons *)
  Lemma tail_atom x : (forall a d, x <> DCons a d) -> rt x -> tail_rt x.
  Proof.
    intros NC R lev n txt rest acc fuel O Td Cn Lg Pt Fu.
    assert (Pt' : (if is_sym x NIL then Some [] else oapp (Some [32; 46; 32]) (prin1 base down plen lev x)) = Some txt).
    { destruct x; try exact Pt. exfalso; eapply NC; reflexivity. }
    assert (Td' : 1 + depth x <= lev + 1).
    { destruct x; try exact Td. exfalso; eapply NC; reflexivity. }
    clear Pt Td.
    destruct (is_sym x NIL) eqn:EN.
    - apply is_sym_eq in EN. subst x. inversion Pt'; subst txt. cbn [app length] in *.
      destruct fuel as [|f]; [lia|]. split; [apply list_end|]. cbn [delimiter In]. tauto.
    - apply oapp_some in Pt'. destruct Pt' as (p & q & E1 & E2 & E3). inversion E1; subst p; clear E1. subst txt.
      cbn [app length] in *.
      split; [|cbn [delimiter In]; tauto].
      destruct fuel as [|[|f]]; [lia|lia|].
      destruct (R lev q (41 :: rest) f O ltac:(lia) Lg E2) as [R1 _].
      { cbn [delimiter In]. tauto. }
      { lia. }
      rewrite list_white. rewrite read_list_S. change (nextch (46 :: 32 :: q ++ 41 :: rest)) with (NCh 46 (32 :: q ++ 41 :: rest)).
      cbv iota. change (46 =? 41) with false. change (46 =? 46) with true. cbv iota.
      change (128 <=? 32) with false. change (syntax 32) with White. cbv iota.
      change (read1 base (S f) (32 :: q ++ 41 :: rest)) with (read1 base f (q ++ 41 :: rest)). rewrite R1.
      change (nextch (41 :: rest)) with (NCh 41 rest). cbv iota. change (41 =? 41) with true. reflexivity.
  Qed.

  Lemma elems_rt l : Forall rt l -> forall lev txt rest acc fuel,
    Forall (fun x => datum_ok base down x /\ depth x <= lev /\ longest x <= plen) l ->
    prelems base down plen lev l = Some txt -> (2 * length txt + 2 <= fuel)%nat ->
    read_vector base fuel acc (txt ++ 41 :: rest) = Val (DVec (rev acc ++ l)) rest.
  Proof.
    induction l as [|e r IH]; intros R lev txt rest acc fuel O P Fu.
    - cbn [prelems] in P. inversion P; subst txt. cbn [app length] in *. destruct fuel as [|f]; [lia|].
      rewrite vector_end, app_nil_r. reflexivity.
    - inversion R as [|? ? Re Rr]; subst. inversion O as [|? ? Oe Or]; subst. destruct Oe as (Oe & De & Le).
      cbn [prelems] in P. apply oapp_some in P. destruct P as (p & q & E1 & E2 & ->).
      rewrite app_length in Fu. rewrite <- app_assoc.
      destruct fuel as [|f]; [lia|].
      destruct r as [|e2 r2].
      + inversion E2; subst q. cbn [app length] in *.
        destruct (Re lev p (41 :: rest) f Oe De Le E1) as [R1 St]; [cbn [delimiter In]; tauto|lia|].
        rewrite (vector_step base f acc p (41 :: rest) e St R1).
        destruct f as [|f]; [lia|]. rewrite vector_end. reflexivity.
      + apply oapp_some in E2. destruct E2 as (p2 & q2 & E3 & E4 & ->). inversion E3; subst p2; clear E3.
        cbn [app length] in *.
        destruct (Re lev p (32 :: q2 ++ 41 :: rest) f Oe De Le E1) as [R1 St]; [cbn [delimiter In]; tauto|lia|].
        rewrite (vector_step base f acc p _ e St R1), vector_white.
        pose proof (starts_len p St).
        rewrite (IH Rr lev q2 rest (e :: acc) f Or E4) by lia. cbn [rev]. rewrite <- app_assoc. reflexivity.
  Qed.

  Lemma main x : rt x /\ tail_rt x /\ (forall a d, x = DCons a d -> rt a).
  Proof.
    induction x as [o|t|kw name|s|l IH|a d IHa IHd] using datum_ind'.
    - assert (R : rt (DInt o)).
      { intros lev txt rest fuel O Dp Lg P D Fu. cbn [prin1] in P. cbn [depth] in Dp.
        destruct (Z.leb_spec lev 0); [lia|]. destruct O as [Ca Le].
        pose proof (print_read_integer base down o txt Hb Ca P (Le txt P)) as T.
        destruct fuel as [|f].
        - destruct txt; [|cbn [length] in Fu; lia]. vm_compute in T. discriminate T.
        - apply read1_integer; auto; lia. }
      split; [exact R|]. split; [|intros; discriminate]. apply tail_atom; [intros; discriminate|exact R].
    - assert (R : rt (DFlt t)) by (intros ? ? ? ? [] ).
      split; [exact R|]. split; [|intros; discriminate]. apply tail_atom; [intros; discriminate|exact R].
    - assert (R : rt (DSym kw name)).
      { intros lev txt rest fuel O Dp Lg P D Fu. cbn [prin1] in P. cbn [depth] in Dp.
        destruct (Z.leb_spec lev 0); [lia|]. cbn [datum_ok] in O.
        pose proof (symbol_starts base down kw name txt ltac:(lia) O P) as St. pose proof (starts_len txt St).
        destruct fuel as [|f]; [lia|]. split; [|exact St].
        destruct O as ((Fc & Ln & Lb & Nn) & Nd).
        apply (read1_symbol base down); auto; [lia|]. intros E. destruct (Nn E). assumption. }
      split; [exact R|]. split; [|intros; discriminate]. apply tail_atom; [intros; discriminate|exact R].
    - assert (R : rt (DStr s)).
      { intros lev txt rest fuel O Dp Lg P D Fu. cbn [prin1] in P. cbn [depth] in Dp.
        destruct (Z.leb_spec lev 0); [lia|]. inversion P; subst txt; clear P.
        destruct fuel as [|f]; [cbn [printstr app length] in Fu; lia|]. split; [apply read1_string; exact O|].
        exists 34, (str_loop s ++ [34]). split; [reflexivity|]. split; [lia|]. split; [vm_compute; discriminate|].
        split; [lia|]. split; [lia|]. intros X; discriminate X. }
      split; [exact R|]. split; [|intros; discriminate]. apply tail_atom; [intros; discriminate|exact R].
    - assert (R : rt (DVec l)).
      { intros lev txt rest fuel O Dp Lg P D Fu. rewrite prin1_vec in P by exact Hp.
        pose proof (depth_pos (DVec l)). destruct (Z.leb_spec lev 0); [lia|].
        apply oapp_some in P. destruct P as (p & q & E1 & E2 & ->). inversion E1; subst p; clear E1.
        apply oapp_some in E2. destruct E2 as (p & q' & E1 & E2 & ->). inversion E2; subst q'; clear E2.
        cbn [app] in *. cbn [length] in Fu. rewrite app_length in Fu. cbn [length] in Fu. rewrite <- app_assoc. cbn [app].
        split.
        - destruct fuel as [|f]; [lia|].
          change (read1 base (S f) (35 :: 40 :: p ++ 41 :: rest)) with (read_vector base f [] (p ++ 41 :: rest)).
          apply (elems_rt l) with (lev := lev - 1); auto.
          + apply Forall_forall. intros x Hx. rewrite Forall_forall in IH. destruct (IH x Hx) as [A _]. exact A.
          + clear IH E1 Fu. cbn [datum_ok] in O. cbn [depth] in Dp. cbn [longest] in Lg. induction l as [|e r IHr]; [constructor|].
            destruct O as [Oe Or]. constructor.
            * split; [exact Oe|]. lia.
            * apply IHr; [exact Or|lia|lia|]. pose proof (depth_pos (DVec r)). assumption.
          + lia.
        - exists 35, (40 :: p ++ [41]). split; [reflexivity|]. split; [lia|]. split; [vm_compute; discriminate|].
          split; [lia|]. split; [lia|]. intros X; discriminate X. }
      split; [exact R|]. split; [|intros; discriminate]. apply tail_atom; [intros; discriminate|exact R].
    - destruct IHa as [Ra _]. destruct IHd as (_ & Td & Rbb). split; [|split; [|intros a0 d0 X; inversion X; subst; exact Ra]].
      + intros lev txt rest fuel O Dp Lg P D Fu. rewrite prin1_cons in P. rewrite depth_cons in Dp.
        pose proof (depth_pos a). destruct (Z.leb_spec lev 0); [lia|].
        cbn [datum_ok] in O. destruct O as [Oa Od]. cbn [longest] in Lg.
        assert (Whole : prwhole base down plen lev a d = Some txt ->
                        read1 base fuel (txt ++ rest) = Val (DCons a d) rest /\ starts txt).
        { clear P. unfold prwhole. intros P.
          apply oapp_some in P. destruct P as (p & q & E1 & E2 & ->). inversion E1; subst p; clear E1.
          apply oapp_some in E2. destruct E2 as (p & q' & E1 & E2 & ->).
          apply oapp_some in E2. destruct E2 as (p2 & q2 & E3 & E4 & ->). inversion E4; subst q2; clear E4.
          cbn [app] in *. cbn [length] in Fu. rewrite !app_length in Fu. cbn [length] in Fu. rewrite <- !app_assoc. cbn [app].
          split.
          - destruct fuel as [|[|f]]; [lia|lia|].
            change (read1 base (S (S f)) (40 :: p ++ p2 ++ 41 :: rest)) with (read_list base (S f) [] (p ++ p2 ++ 41 :: rest)).
            destruct (Td (lev - 1) plen p2 rest [a] f Od ltac:(lia) ltac:(lia) ltac:(lia) E3 ltac:(lia)) as [R2 D2].
            destruct (Ra (lev - 1) p (p2 ++ 41 :: rest) f Oa ltac:(lia) ltac:(lia) E1 D2 ltac:(lia)) as [R1 St].
            rewrite (list_step base f [] p _ a St R1). rewrite R2. reflexivity.
          - exists 40, (p ++ p2 ++ [41]). split; [reflexivity|]. split; [lia|]. split; [vm_compute; discriminate|].
            split; [lia|]. split; [lia|]. intros X; discriminate X. }
        destruct d as [| | | | |b e]; try (apply Whole; exact P).
        (* the abbreviations: the quoted datum is the first element of the tail *)
        assert (Rb : is_sym e NIL = true -> forall q, prin1 base down plen (lev - 2) b = Some q -> forall f, (2 * length q <= f)%nat ->
                     read1 base f (q ++ rest) = Val b rest /\ e = NIL).
        { intros En q Pq f Fq. apply is_sym_eq in En. subst e. split; [|reflexivity].
          cbn [datum_ok] in Od. destruct Od as [Ob _]. unfold tdepth in Dp. rewrite depth_cons in Dp. cbn [longest conses] in Lg.
          destruct (Rbb b NIL eq_refl (lev - 2) q rest f Ob ltac:(lia) ltac:(lia) Pq D Fq) as [R1 _]. exact R1. }
        destruct (is_sym a QUOTE && is_sym e NIL) eqn:Q1; [|destruct (is_sym a FUNCTION && is_sym e NIL) eqn:Q2; [|apply Whole; exact P]].
        * apply andb_true_iff in Q1. destruct Q1 as [Qa Qe]. apply is_sym_eq in Qa. fold QUOTE in Qa. subst a.
          apply oapp_some in P. destruct P as (p & q & E1 & E2 & ->). inversion E1; subst p; clear E1. cbn [app length] in *.
          split.
          -- destruct fuel as [|f]; [lia|]. destruct (Rb Qe q E2 f ltac:(lia)) as [R1 ->].
             change (read1 base (S f) (39 :: q ++ rest)) with
               (match read1 base f (q ++ rest) with Val x r' => Val (DCons QUOTE (DCons x NIL)) r' | Unb _ => Unsup | o => o end).
             rewrite R1. reflexivity.
          -- exists 39, q. split; [reflexivity|]. split; [lia|]. split; [vm_compute; discriminate|].
             split; [lia|]. split; [lia|]. intros X; discriminate X.
        * clear Q1. apply andb_true_iff in Q2. destruct Q2 as [Qa Qe]. apply is_sym_eq in Qa. fold FUNCTION in Qa. subst a.
          apply oapp_some in P. destruct P as (p & q & E1 & E2 & ->). inversion E1; subst p; clear E1. cbn [app length] in *.
          split.
          -- destruct fuel as [|f]; [lia|]. destruct (Rb Qe q E2 f ltac:(lia)) as [R1 ->].
             change (read1 base (S f) (35 :: 39 :: q ++ rest)) with
               (match read1 base f (q ++ rest) with Val x r' => Val (DCons FUNCTION (DCons x NIL)) r' | Unb _ => Unsup | o => o end).
             rewrite R1. reflexivity.
          -- exists 35, (39 :: q). split; [reflexivity|]. split; [lia|]. split; [vm_compute; discriminate|].
             split; [lia|]. split; [lia|]. intros X; discriminate X.
      + intros lev n txt rest acc fuel O Dp Cn Lg P Fu. cbn [prtail] in P. unfold tdepth in Dp. rewrite depth_cons in Dp.
        cbn [conses] in Cn. pose proof (conses_nonneg d). destruct (Z.leb_spec (n - 1) 0); [lia|].
        cbn [datum_ok] in O. destruct O as [Oa Od]. cbn [longest] in Lg.
        apply oapp_some in P. destruct P as (p & q & E1 & E2 & ->). inversion E1; subst p; clear E1.
        apply oapp_some in E2. destruct E2 as (p & p2 & E1 & E2 & ->).
        cbn [app] in *. cbn [length] in Fu. rewrite !app_length in Fu. rewrite <- !app_assoc.
        split; [|cbn [delimiter In]; tauto].
        destruct fuel as [|f]; [lia|]. rewrite list_white.
        destruct (Td lev (n - 1) p2 rest (a :: acc) f Od ltac:(lia) ltac:(lia) ltac:(lia) E2 ltac:(lia)) as [R2 D2].
        destruct (Ra lev p (p2 ++ 41 :: rest) f Oa ltac:(lia) ltac:(lia) E1 D2 ltac:(lia)) as [R1 St].
        rewrite (list_step base f acc p _ a St R1). rewrite R2. reflexivity.
  Qed.
End Main.

(** ** At top level *)
Lemma skip_rparens_other k inp c r : nextch inp = NCh c r -> c <> 41 -> skip_rparens k inp = NCh c r.
Proof. intros N C. apply Z.eqb_neq in C. destruct k; cbn [skip_rparens]; rewrite N, C; reflexivity. Qed.

Lemma reader_starts base fuel txt rest x : starts txt ->
  read1 base fuel (txt ++ rest) = Val x rest -> reader base fuel (txt ++ rest) = Val x rest.
Proof.
  intros St R. unfold reader. destruct (starts_next txt rest St) as (c & t & E & N & C & _).
  rewrite (skip_rparens_other _ _ c (t ++ rest) N C). subst txt. cbn [app] in R. rewrite R. reflexivity.
Qed.

Theorem print_read_datum base down plen lev x txt rest fuel : 2 <= base <= 21 -> 0 < plen ->
  datum_ok base down x -> depth x <= lev -> longest x <= plen ->
  prin1 base down plen lev x = Some txt -> delimiter rest -> (2 * length txt <= fuel)%nat ->
  reader base fuel (txt ++ rest) = Val x rest.
Proof.
  intros Hb Hp O Dp Lg P D Fu. destruct (main base down plen Hb Hp x) as [R _].
  destruct (R lev txt rest fuel O Dp Lg P D Fu) as [R1 St]. apply reader_starts; assumption.
Qed.

(** ** Everything in the region prints *)
Lemma printsym_total base down kw name : (length name <= 383)%nat \/ ~ In 124 name -> exists txt, printsym base down kw name = Some txt.
Proof.
  intros Lb. unfold printsym. destruct (escape base name) eqn:E.
  - cbn [negb andb]. rewrite (name_loop_escaped name Lb). eexists; reflexivity.
  - cbn [negb]. rewrite Bool.andb_true_l. unfold escape in E. apply orb_false_iff in E. destruct E as [E1 _].
    assert (Nb : ~ In 124 name).
    { intros X. assert (existsb escape_char name = true) by (apply existsb_exists; exists 124; split; [exact X|reflexivity]). congruence. }
    rewrite (name_loop_nobar down name Nb). eexists; reflexivity.
Qed.

Lemma print_integer_total base down o : 2 <= base <= 36 -> canonical o -> exists txt, print_integer base down o = Some txt.
Proof. intros Hb Hc. destruct (print_integer_spec base down o Hb Hc) as (dl & P & _). eexists; exact P. Qed.

Lemma print_total base down plen x : 2 <= base <= 36 -> forall lev, datum_ok base down x ->
  (exists txt, prin1 base down plen lev x = Some txt) /\
  (forall n, exists txt, prtail base down plen lev n x = Some txt).
Proof.
  intros Hb.
  assert (At : forall x lev, (forall a d, x <> DCons a d) -> (exists txt, prin1 base down plen lev x = Some txt) ->
               forall n, exists txt, prtail base down plen lev n x = Some txt).
  { intros y lev NC [t E] n. destruct y; try (exfalso; eapply NC; reflexivity);
      cbn [prtail]; destruct (is_sym _ NIL); try (eexists; reflexivity); rewrite E; eexists; reflexivity. }
  induction x as [o|t|kw name|s|l IH|a d IHa IHd] using datum_ind'; intros lev O.
  - assert (R : exists txt, prin1 base down plen lev (DInt o) = Some txt).
    { cbn [prin1]. destruct (lev <=? 0); [eexists; reflexivity|]. apply print_integer_total; [exact Hb|]. destruct O; assumption. }
    split; [exact R|]. apply At; [intros; discriminate|exact R].
  - destruct O.
  - assert (R : exists txt, prin1 base down plen lev (DSym kw name) = Some txt).
    { cbn [prin1]. destruct (lev <=? 0); [eexists; reflexivity|]. apply printsym_total. destruct O as ((_ & _ & X & _) & _). exact X. }
    split; [exact R|]. apply At; [intros; discriminate|exact R].
  - assert (R : exists txt, prin1 base down plen lev (DStr s) = Some txt).
    { cbn [prin1]. destruct (lev <=? 0); eexists; reflexivity. }
    split; [exact R|]. apply At; [intros; discriminate|exact R].
  - assert (R : exists txt, prin1 base down plen lev (DVec l) = Some txt).
    { destruct (Z.leb_spec plen 0) as [Hp|Hp].
      - cbn [prin1]. destruct (lev <=? 0); [eexists; reflexivity|]. destruct (Z.leb_spec plen 0); [|lia].
        destruct l; eexists; reflexivity.
      - rewrite prin1_vec by exact Hp. destruct (lev <=? 0); [eexists; reflexivity|].
        assert (X : exists t, prelems base down plen (lev - 1) l = Some t).
        { clear Hp. cbn [datum_ok] in O. induction l as [|e r IHr]; [eexists; reflexivity|].
          inversion IH as [|? ? He Hr]; subst. destruct O as [Oe Or]. destruct (He (lev - 1) Oe) as [[te Ee] _].
          destruct (IHr Hr Or) as [tr Er]. cbn [prelems]. rewrite Ee. destruct r; [eexists; reflexivity|].
          rewrite Er. eexists; reflexivity. }
        destruct X as [t ->]. eexists; reflexivity. }
    split; [exact R|]. apply At; [intros; discriminate|exact R].
  - cbn [datum_ok] in O. destruct O as [Oa Od]. split.
    + rewrite prin1_cons. destruct (lev <=? 0); [eexists; reflexivity|].
      assert (W : exists t, prwhole base down plen lev a d = Some t).
      { unfold prwhole. destruct (IHa (lev - 1) Oa) as [[ta ->] _]. destruct (IHd (lev - 1) Od) as [_ Ht]. destruct (Ht plen) as [td ->].
        eexists; reflexivity. }
      destruct d as [| | | | |b e]; try exact W.
      (* the abbreviated datum is printed by the tail loop as well, hence printable *)
      assert (B : forall l0, exists t, prin1 base down plen l0 b = Some t).
      { intros l0. destruct (IHd l0 Od) as [_ Ht]. destruct (Ht 5) as [t E]. cbn [prtail] in E.
        change (5 - 1 <=? 0) with false in E. cbv iota in E. apply oapp_some in E. destruct E as (p & q & _ & E & _).
        apply oapp_some in E. destruct E as (p2 & q2 & E & _). eauto. }
      destruct (B (lev - 2)) as [tb ->].
      destruct (is_sym a QUOTE && is_sym e NIL); [eexists; reflexivity|].
      destruct (is_sym a FUNCTION && is_sym e NIL); [eexists; reflexivity|exact W].
    + intros n. cbn [prtail]. destruct (n - 1 <=? 0); [eexists; reflexivity|].
      destruct (IHa lev Oa) as [[ta ->] _]. destruct (IHd lev Od) as [_ Ht]. destruct (Ht (n - 1)) as [td ->]. eexists; reflexivity.
Qed.

Theorem print_read_data base down plen lev x rest : 2 <= base <= 21 -> 0 < plen ->
  datum_ok base down x -> depth x <= lev -> longest x <= plen -> delimiter rest ->
  exists txt, prin1 base down plen lev x = Some txt /\
              reader base (2 * length (txt ++ rest)) (txt ++ rest) = Val x rest.
Proof.
  intros Hb Hp O Dp Lg D. destruct (print_total base down plen x ltac:(lia) lev O) as [[txt P] _].
  exists txt. split; [exact P|]. apply (print_read_datum base down plen lev); auto.
  rewrite app_length. lia.
Qed.

(** ** Symbols and strings at top level *)
Lemma reader_next base fuel txt rest x c t : txt = c :: t -> c < 128 -> syntax c <> White -> c <> 59 -> c <> 41 ->
  read1 base fuel (txt ++ rest) = Val x rest -> reader base fuel (txt ++ rest) = Val x rest.
Proof.
  intros -> L W N1 N2 R. unfold reader.
  assert (N : nextch ((c :: t) ++ rest) = NCh c (t ++ rest)).
  { unfold nextch. cbn [app skip]. destruct (Z.eqb_spec c 255); [lia|]. destruct (Z.leb_spec 128 c); [lia|].
    apply Z.eqb_neq in N1. rewrite N1. destruct (syntax c); try reflexivity. congruence. }
  rewrite (skip_rparens_other _ _ c (t ++ rest) N N2). cbn [app] in R. rewrite R. reflexivity.
Qed.

Theorem print_read_symbol base down kw name rest : 2 <= base <= 36 -> name_ok base kw name -> delimiter rest ->
  exists txt, printsym base down kw name = Some txt /\
              reader base (2 * length (txt ++ rest)) (txt ++ rest) = Val (DSym kw name) rest.
Proof.
  intros Hb (Fc & Ln & Lb & Nn) D. destruct (printsym_total base down kw name Lb) as [txt P]. exists txt. split; [exact P|].
  assert (St : exists c t, txt = c :: t /\ c < 128 /\ syntax c <> White /\ c <> 59 /\ c <> 41).
  { unfold printsym in P. destruct (name_loop (negb (escape base name) && down) name 0) as [t|] eqn:NL; [|discriminate P].
    inversion P; subst txt; clear P. destruct kw.
    { eexists 58, _. split; [reflexivity|]. split; [lia|]. split; [vm_compute; discriminate|]. split; lia. }
    destruct (escape base name) eqn:E.
    { eexists 124, _. split; [reflexivity|]. split; [lia|]. split; [vm_compute; discriminate|]. split; lia. }
    cbn [app]. cbn [negb] in NL. rewrite Bool.andb_true_l in NL.
    unfold escape in E. apply orb_false_iff in E. destruct E as [E1 E2].
    destruct name as [|c r]; [discriminate E2|].
    cbn [existsb] in E1. apply orb_false_iff in E1. destruct E1 as [E1 E3]. destruct (escape_char_no c E1) as (Sc & N58 & N124 & _).
    assert (Nb : ~ In 124 (c :: r)).
    { intros [X|X]; [congruence|]. assert (existsb escape_char r = true) by (apply existsb_exists; exists 124; split; [exact X|reflexivity]). congruence. }
    rewrite (name_loop_nobar down (c :: r) Nb) in NL. inversion NL; subst t; clear NL.
    destruct (Nn eq_refl) as [_ H128]. pose proof (H128 c r eq_refl) as Hc.
    assert (Sl : syntax (if down then to_lower c else c) = Constituent) by (destruct down; [apply lower_const|]; auto).
    eexists _, _. split; [reflexivity|]. split.
    { destruct down; [|exact Hc]. unfold to_lower. destruct (Z.leb_spec 65 c); destruct (Z.leb_spec c 90); cbn [andb]; lia. }
    split; [rewrite Sl; discriminate|]. split; intros X; rewrite X in Sl; discriminate Sl. }
  destruct St as (c & t & E & C1 & C2 & C3 & C4).
  apply (reader_next base _ txt rest _ c t); auto.
  subst txt. cbn [app length]. replace (2 * S (length (t ++ rest)))%nat with (S (S (2 * length (t ++ rest)))) by lia.
  apply (read1_symbol base down kw name (c :: t)); auto. intros K. destruct (Nn K). assumption.
Qed.

Theorem print_read_string base s rest : Forall byte s ->
  reader base (2 * length (printstr s ++ rest)) (printstr s ++ rest) = Val (DStr s) rest.
Proof.
  intros B. apply (reader_next base _ (printstr s) rest _ 34 (str_loop s ++ [34])); try lia; try reflexivity.
  - vm_compute; discriminate.
  - unfold printstr. cbn [app length].
    set (n := length ((str_loop s ++ [34]) ++ rest)). replace (2 * S n)%nat with (S (S (2 * n))) by lia.
    apply (read1_string base (S (2 * n)) s rest B).
Qed.

(** The characters of a name that looks like a number *)
Lemma number_like_chars base name : number_like base name ->
  Forall (fun c => digit_of base c \/ In c [43; 45; 46; 47; 69; 68; 70; 76; 101; 100; 102; 108]) name.
Proof.
  assert (Dg : forall l, Forall (digit_of base) l -> Forall (fun c => digit_of base c \/ In c [43; 45; 46; 47; 69; 68; 70; 76; 101; 100; 102; 108]) l).
  { intros l F. eapply Forall_impl; [|exact F]. intros c H. left. exact H. }
  assert (Sg : forall l, sign_text l -> Forall (fun c => digit_of base c \/ In c [43; 45; 46; 47; 69; 68; 70; 76; 101; 100; 102; 108]) l).
  { intros l H. destruct H as [H|[H|H]]; subst l; [constructor| |]; (apply Forall_cons; [right; cbn [In]; tauto|constructor]). }
  assert (Ex : forall l, expo_text base l -> Forall (fun c => digit_of base c \/ In c [43; 45; 46; 47; 69; 68; 70; 76; 101; 100; 102; 108]) l).
  { intros l [H|(m & s & ds & H & M & Hs & Hd)]; subst l; [constructor|]. apply Forall_cons.
    - right. cbn [In] in *. tauto.
    - apply Forall_app. split; [apply Sg|apply Dg]; assumption. }
  intros (s & ds & t & E & Ss & Fd & _ & H). subst name. apply Forall_app. split; [apply Sg; exact Ss|].
  apply Forall_app. split; [apply Dg; exact Fd|].
  destruct H as [[_ H]|[(ds' & e & H & H1 & H2)|[_ (ds' & H & _ & H1)]]].
  - apply Ex; exact H.
  - subst t. apply Forall_cons; [right; cbn [In]; tauto|]. apply Forall_app. split; [apply Dg|apply Ex]; assumption.
  - subst t. apply Forall_cons; [right; cbn [In]; tauto|]. apply Dg; exact H1.
Qed.

(** Sufficient condition for base 10: a character other than digits and + - . / E D F L *)
Lemma not_number_like name c : In c name ->
  ~ In c [43; 45; 46; 47; 69; 68; 70; 76; 101; 100; 102; 108] -> ~ (48 <= c <= 57) -> ~ number_like 10 name.
Proof.
  intros Hc N D H. apply number_like_chars in H. rewrite Forall_forall in H. destruct (H c Hc) as [(d & R & E)|X]; [|auto].
  destruct (Z.ltb_spec d 10); lia.
Qed.
