(** Proofs for C39 and C40: strings and symbols read back. *)
From Verif Require Import Word BigModel BigSpec IntTextModel ReadModel ReadSpec.
From Coq Require Import Lia.

Ltac zb := repeat match goal with
  | H : (_ =? _) = true |- _ => apply Z.eqb_eq in H
  | H : (_ =? _) = false |- _ => apply Z.eqb_neq in H
  | H : (_ <? _) = true |- _ => apply Z.ltb_lt in H
  | H : (_ <? _) = false |- _ => apply Z.ltb_ge in H
  | H : (_ <=? _) = true |- _ => apply Z.leb_le in H
  | H : (_ <=? _) = false |- _ => apply Z.leb_gt in H
  | H : (_ && _) = true |- _ => apply andb_true_iff in H; destruct H
  | H : (_ || _) = false |- _ => apply orb_false_iff in H; destruct H
  end.

(** Case analysis on the syntax table: the class of a character as arithmetic. *)
Lemma chartype_const c : chartype c = Constituent ->
  c = 8 \/ (32 < c /\ c <> 34 /\ c <> 35 /\ c <> 39 /\ c <> 40 /\ c <> 41 /\ c <> 44 /\ c <> 59 /\ c <> 92 /\ c <> 124).
Proof.
  unfold chartype.
  repeat match goal with |- context [if ?b then _ else _] => destruct b eqn:? end; intros E; try discriminate E; zb; subst; auto.
  all: try lia.
  all: repeat match goal with H : (_ && _) = false |- _ => apply andb_false_iff in H; destruct H end; zb; lia.
Qed.

Lemma chartype_const' c : c = 8 \/ (32 < c /\ c <> 34 /\ c <> 35 /\ c <> 39 /\ c <> 40 /\ c <> 41 /\ c <> 44 /\ c <> 59 /\ c <> 92 /\ c <> 124) ->
  chartype c = Constituent.
Proof.
  intros H. unfold chartype.
  repeat match goal with |- context [if ?b then _ else _] => destruct b eqn:? end; auto; zb; lia.
Qed.

Lemma chartype_multi c : chartype c = MultiEscape -> c = 124.
Proof.
  unfold chartype.
  repeat match goal with |- context [if ?b then _ else _] => destruct b eqn:? end; intros E; try discriminate E; zb; auto.
Qed.

Lemma chartype_sgl c : chartype c = SglEscape -> c = 92.
Proof.
  unfold chartype.
  repeat match goal with |- context [if ?b then _ else _] => destruct b eqn:? end; intros E; try discriminate E; zb; auto.
Qed.

Lemma chartype_illegal c : chartype c = Illegal -> c < 32 /\ ~ In c [8; 9; 10; 12; 13].
Proof.
  unfold chartype. cbn [In].
  repeat match goal with |- context [if ?b then _ else _] => destruct b eqn:? end; intros E; try discriminate E; zb; lia.
Qed.

Lemma syntax_const c : chartype c = Constituent -> c <> 96 -> syntax c = Constituent.
Proof. intros H N. unfold syntax. apply Z.eqb_neq in N. rewrite N. exact H. Qed.

Lemma delimiter_syntax c r : delimiter (c :: r) -> syntax c = White \/ syntax c = TermMacro.
Proof.
  cbn [delimiter In]. intros H.
  repeat (destruct H as [H|H]; [subst c; vm_compute; auto|]). destruct H.
Qed.

(** ** Strings *)

Lemma readstring_str s rest : Forall byte s -> forall acc,
  readstring acc (str_loop s ++ 34 :: rest) = Val (DStr (rev acc ++ s)) rest.
Proof.
  induction s as [|c s IH]; intros B acc.
  - cbn [str_loop app readstring]. rewrite Z.eqb_refl, app_nil_r. reflexivity.
  - inversion B as [|? ? Bc Bs]; subst. cbn [str_loop].
    destruct ((c =? 34) || (c =? 92)) eqn:E.
    + cbn [app readstring]. change (92 =? 34) with false. cbv iota. change (syntax 92) with SglEscape. cbv iota.
      rewrite (IH Bs). cbn [rev]. rewrite <- app_assoc. reflexivity.
    + zb. cbn [app readstring]. replace (c =? 34) with false by (symmetry; apply Z.eqb_neq; auto).
      assert (N : syntax c <> SglEscape).
      { unfold syntax. destruct (c =? 96); [discriminate|]. intros X. apply chartype_sgl in X. contradiction. }
      destruct (syntax c); try contradiction; rewrite (IH Bs); cbn [rev]; rewrite <- app_assoc; reflexivity.
Qed.

Lemma read1_string base f s rest : Forall byte s ->
  read1 base (S f) (printstr s ++ rest) = Val (DStr s) rest.
Proof.
  intros B. unfold printstr. cbn [app]. rewrite <- app_assoc. cbn [app].
  change (read1 base (S f) (34 :: str_loop s ++ 34 :: rest)) with (readstring [] (str_loop s ++ 34 :: rest)).
  apply (readstring_str s rest B []).
Qed.

(** ** Token loops *)

Lemma read2_loop_plain s : forall esc tok i colon rest,
  Forall (fun c => syntax c = Constituent /\ c <> 58) s -> delimiter rest -> (i + length s < 1024)%nat ->
  read2_loop false esc tok i colon (s ++ rest) = TDone esc (rev tok ++ map to_upper s) colon rest.
Proof.
  induction s as [|c s IH]; intros esc tok i colon rest Fs D L; cbn [length] in L.
  - cbn [app map]. rewrite app_nil_r.
    destruct rest as [|c r]; cbn [read2_loop];
      (destruct (Nat.leb_spec MAXTOKENLENGTH i) as [X|X]; [unfold MAXTOKENLENGTH in X; lia|]); [reflexivity|].
    destruct (delimiter_syntax c r D) as [Y|Y]; rewrite Y; reflexivity.
  - inversion Fs as [|? ? [Sc Nc] Fs']; subst. cbn [app read2_loop].
    destruct (Nat.leb_spec MAXTOKENLENGTH i) as [X|X]; [unfold MAXTOKENLENGTH in X; lia|].
    rewrite Sc. unfold package_marker. apply Z.eqb_neq in Nc. rewrite Nc.
    rewrite IH by (auto; lia). cbn [rev map]. rewrite <- app_assoc. reflexivity.
Qed.

(** The text of a name between bars *)
Fixpoint bar_text (s : list Z) : list Z :=
  match s with
  | [] => []
  | c :: r => if c =? 124 then 92 :: c :: bar_text r else c :: bar_text r
  end.

Lemma name_char_syntax c : name_char c -> syntax c <> Illegal /\ syntax c <> SglEscape /\ (syntax c = MultiEscape -> c = 124).
Proof.
  intros (B & N & L). unfold syntax. destruct (c =? 96); [repeat split; discriminate|].
  split; [|split].
  - intros X. apply chartype_illegal in X. destruct X as [X Y]. auto.
  - intros X. apply chartype_sgl in X. auto.
  - apply chartype_multi.
Qed.

Lemma read2_loop_bars s : forall tok i colon rest,
  Forall name_char s -> delimiter rest -> (i + length s < 1024)%nat ->
  read2_loop true true tok i colon (bar_text s ++ 124 :: rest) = TDone true (rev tok ++ s) colon rest.
Proof.
  induction s as [|c s IH]; intros tok i colon rest Fs D L; cbn [length] in L.
  - cbn [bar_text app read2_loop].
    destruct (Nat.leb_spec MAXTOKENLENGTH i) as [X|X]; [unfold MAXTOKENLENGTH in X; lia|].
    change (syntax 124) with MultiEscape. cbv iota.
    pose proof (read2_loop_plain [] true tok i colon rest) as P. cbn [app map length] in P.
    rewrite P; auto.
  - inversion Fs as [|? ? Nc Fs']; subst. cbn [bar_text].
    destruct (name_char_syntax c Nc) as (S1 & S2 & S3).
    destruct (Z.eqb_spec c 124) as [E|N].
    + subst c. cbn [app read2_loop].
      destruct (Nat.leb_spec MAXTOKENLENGTH i) as [X|X]; [unfold MAXTOKENLENGTH in X; lia|].
      change (syntax 92) with SglEscape. cbv iota.
      rewrite IH by (auto; lia). cbn [rev]. rewrite <- app_assoc. reflexivity.
    + cbn [app read2_loop].
      destruct (Nat.leb_spec MAXTOKENLENGTH i) as [X|X]; [unfold MAXTOKENLENGTH in X; lia|].
      destruct (syntax c); try contradiction; try (exfalso; apply N; apply S3; reflexivity);
        rewrite IH by (auto; lia); cbn [rev]; rewrite <- app_assoc; reflexivity.
Qed.

(** ** The printed name *)

Lemma name_loop_nobar down s : ~ In 124 s -> forall i,
  name_loop down s i = Some (map (fun c => if down then to_lower c else c) s).
Proof.
  induction s as [|c s IH]; intros N i; [reflexivity|].
  cbn [name_loop map]. rewrite IH by (intros X; apply N; right; exact X).
  destruct (chartype c) eqn:E; try reflexivity.
  apply chartype_multi in E. exfalso. apply N. left. exact E.
Qed.

Lemma name_loop_short s : forall i, 0 <= i -> i + 2 * Z.of_nat (length s) <= 766 ->
  name_loop false s i = Some (bar_text s).
Proof.
  induction s as [|c s IH]; intros i I0 L; [reflexivity|].
  cbn [name_loop bar_text]. cbn [length] in L.
  set (i' := if (i <? Z.of_nat (length (c :: s))) && (i <? 256) then i else 0).
  assert (J : 0 <= i' <= i /\ (i' < 255 \/ (i' = 255 /\ 256 <= Z.of_nat (length (c :: s))))).
  { unfold i'. cbn [length].
    destruct (Z.ltb_spec i (Z.of_nat (S (length s)))); destruct (Z.ltb_spec i 256); cbn [andb]; lia. }
  clearbody i'. cbn [length] in J.
  destruct (chartype c) eqn:E.
  5: { apply chartype_multi in E. subst c. rewrite Z.eqb_refl.
       destruct (Z.leb_spec 256 (i' + 1)); [lia|]. rewrite IH by lia. reflexivity. }
  all: assert (N : c <> 124) by (intros X; subst c; discriminate E); apply Z.eqb_neq in N; rewrite N;
       rewrite IH by lia; reflexivity.
Qed.

Lemma bar_text_id s : ~ In 124 s -> bar_text s = s.
Proof.
  induction s as [|c s IH]; intros N; [reflexivity|].
  cbn [bar_text]. destruct (Z.eqb_spec c 124) as [E|E]; [exfalso; apply N; left; exact E|].
  rewrite IH; [reflexivity|]. intros X; apply N; right; exact X.
Qed.

Lemma name_loop_escaped s : (length s <= 383)%nat \/ ~ In 124 s -> name_loop false s 0 = Some (bar_text s).
Proof.
  intros [L|N].
  - apply name_loop_short; lia.
  - rewrite (name_loop_nobar false s N), map_id, bar_text_id; auto.
Qed.

Lemma escape_char_no c : escape_char c = false ->
  syntax c = Constituent /\ c <> 58 /\ c <> 124 /\ islower c = false.
Proof.
  unfold escape_char, package_marker, has_macro. intros H.
  destruct (chartype c) eqn:E; try discriminate H.
  cbn [orb] in H. zb. split; [apply syntax_const; assumption|].
  split; [assumption|]. split; [|assumption].
  intros X; subst c. discriminate E.
Qed.

Lemma upper_lower c : islower c = false -> to_upper (to_lower c) = c.
Proof.
  unfold islower, to_upper, to_lower. intros H.
  destruct (Z.leb_spec 65 c); destruct (Z.leb_spec c 90); cbn [andb].
  - replace (97 <=? c - 65 + 97) with true by (symmetry; apply Z.leb_le; lia).
    replace (c - 65 + 97 <=? 122) with true by (symmetry; apply Z.leb_le; lia). cbn [andb]. lia.
  - rewrite H. reflexivity.
  - rewrite H. reflexivity.
  - rewrite H. reflexivity.
Qed.

Lemma upper_id c : islower c = false -> to_upper c = c.
Proof. unfold islower, to_upper. intros ->. reflexivity. Qed.

Lemma lower_const c : syntax c = Constituent -> c <> 58 -> syntax (to_lower c) = Constituent /\ to_lower c <> 58.
Proof.
  intros H N. unfold to_lower. destruct (Z.leb_spec 65 c); destruct (Z.leb_spec c 90); cbn [andb]; auto.
  split; [|lia]. unfold syntax. replace (c - 65 + 97 =? 96) with false by (symmetry; apply Z.eqb_neq; lia).
  apply chartype_const'. lia.
Qed.

(** ** Classification *)

Lemma is_digit_spec base c : 2 <= base <= 36 -> is_digit base c = true -> digit_of base c.
Proof.
  intros Hb. unfold is_digit.
  destruct (Z.ltb_spec c 48); [discriminate|].
  destruct (Z.leb_spec base 10).
  - intros X. zb. exists (c - 48). split; [lia|]. replace (c - 48 <? 10) with true by (symmetry; apply Z.ltb_lt; lia). lia.
  - destruct (Z.leb_spec c 57).
    + intros _. exists (c - 48). split; [lia|]. replace (c - 48 <? 10) with true by (symmetry; apply Z.ltb_lt; lia). lia.
    + intros X. zb. exists (c - 55). split; [lia|]. replace (c - 55 <? 10) with false by (symmetry; apply Z.ltb_ge; lia). lia.
Qed.

Lemma digit_is base c : 2 <= base <= 36 -> digit_of base c -> is_digit base c = true.
Proof.
  intros Hb (d & D & ->). unfold is_digit.
  destruct (Z.ltb_spec d 10).
  - destruct (Z.ltb_spec (48 + d) 48); [lia|]. destruct (Z.leb_spec base 10); [apply Z.ltb_lt; lia|].
    destruct (Z.leb_spec (48 + d) 57); [reflexivity|lia].
  - destruct (Z.ltb_spec (65 + d - 10) 48); [lia|]. destruct (Z.leb_spec base 10); [lia|].
    destruct (Z.leb_spec (65 + d - 10) 57); [lia|].
    apply andb_true_intro. split; [apply Z.leb_le|apply Z.ltb_lt]; lia.
Qed.

Lemma dropdigits_split base t : 2 <= base <= 36 -> exists ds, t = ds ++ dropdigits base t /\ Forall (digit_of base) ds.
Proof.
  intros Hb. induction t as [|c t (ds & E & F)]; [exists []; auto|].
  cbn [dropdigits]. destruct (is_digit base c) eqn:D.
  - exists (c :: ds). split; [cbn [app]; f_equal; exact E|]. constructor; auto. apply is_digit_spec; auto.
  - exists []. auto.
Qed.

Lemma dropdigits_ne base t : forall c r, t = c :: r -> is_digit base c = true -> dropdigits base t = dropdigits base r.
Proof. intros c r -> D. cbn [dropdigits]. rewrite D. reflexivity. Qed.

Lemma is_expo_in c : is_expo c = true -> In c [69; 68; 70; 76; 101; 100; 102; 108].
Proof.
  unfold is_expo, to_upper. cbn [In].
  destruct (Z.leb_spec 97 c); destruct (Z.leb_spec c 122); cbn [andb]; intros X;
  repeat (apply orb_true_iff in X; destruct X as [X|X]); zb; lia.
Qed.

Lemma exponent_text base t : 2 <= base <= 36 -> exponent base t <> CSym -> expo_text base t.
Proof.
  intros Hb. destruct t as [|c r]; [left; reflexivity|].
  cbn [exponent]. destruct (is_expo c) eqn:E; [|congruence]. intros H. right.
  apply is_expo_in in E.
  destruct r as [|s r'].
  - exists c, [], []. split; [reflexivity|]. split; [exact E|]. split; [left; reflexivity|constructor].
  - destruct (is_sign s) eqn:Sg.
    + destruct (dropdigits_split base r' Hb) as (ds & E1 & F). destruct (dropdigits base r'); [|congruence].
      rewrite app_nil_r in E1. subst r'.
      exists c, [s], ds. split; [reflexivity|]. split; [exact E|]. split; [|exact F].
      unfold is_sign in Sg. apply orb_true_iff in Sg. right. destruct Sg as [Sg|Sg]; zb; subst; auto.
    + destruct (dropdigits_split base (s :: r') Hb) as (ds & E1 & F). destruct (dropdigits base (s :: r')); [|congruence].
      rewrite app_nil_r in E1. rewrite E1.
      exists c, [], ds. split; [reflexivity|]. split; [exact E|]. split; [left; reflexivity|exact F].
Qed.

Lemma exponent_not_int base t : exponent base t <> CInt.
Proof.
  destruct t as [|c r]; cbn [exponent]; [discriminate|]. destruct (is_expo c); [|discriminate].
  destruct (dropdigits base _); discriminate.
Qed.

Lemma classify_body_number base s t : 2 <= base <= 36 -> sign_text s -> s ++ t <> [46] ->
  classify_body base t <> CSym -> number_like base (s ++ t).
Proof.
  intros Hb Ss Nd. unfold classify_body. destruct t as [|h t0]; [congruence|].
  destruct (is_digit base h || (h =? 46)) eqn:H; [|congruence].
  destruct (dropdigits_split base (h :: t0) Hb) as (ds & E1 & F).
  assert (Nz : dropdigits base (h :: t0) = [] \/ (exists c r, dropdigits base (h :: t0) = c :: r /\ (c <> 46 -> ds <> []))).
  { destruct (dropdigits base (h :: t0)) as [|c r] eqn:E; [left; reflexivity|]. right. exists c, r. split; [reflexivity|].
    intros Nc X. subst ds. cbn [app] in E1. inversion E1; subst.
    apply orb_true_iff in H. destruct H as [H|H]; [|zb; contradiction].
    cbn [dropdigits] in E. rewrite H in E.
    assert (L : (length (dropdigits base r) <= length r)%nat).
    { clear. induction r as [|x r IH]; [auto|]. cbn [dropdigits]. destruct (is_digit base x); cbn [length]; lia. }
    rewrite E in L. cbn [length] in L. lia. }
  destruct Nz as [Z0|(c & t2 & Z0 & Nds)]; rewrite Z0 in *.
  - intros _. rewrite app_nil_r in E1. subst ds. exists s, (h :: t0), []. rewrite app_nil_r. split; [reflexivity|]. split; [exact Ss|]. split; [exact F|].
    split; [exact Nd|]. left. split; [discriminate|left; reflexivity].
  - destruct (Z.eqb_spec c 46) as [Ec|Nc].
    + subst c. intros X. exists s, ds, (46 :: t2). rewrite <- E1. split; [reflexivity|]. split; [exact Ss|]. split; [exact F|].
      split; [exact Nd|]. right. left. destruct t2 as [|y t2].
      * exists [], []. split; [reflexivity|]. split; [constructor|left; reflexivity].
      * destruct (dropdigits_split base (y :: t2) Hb) as (ds2 & E2 & F2).
        exists ds2, (dropdigits base (y :: t2)). split; [f_equal; exact E2|]. split; [exact F2|].
        apply exponent_text; assumption.
    + destruct (Z.eqb_spec c 47) as [Ec|Nc2].
      * subst c. destruct t2 as [|y t2]; [congruence|]. intros X.
        destruct (dropdigits_split base (y :: t2) Hb) as (ds2 & E2 & F2).
        destruct (dropdigits base (y :: t2)); [|congruence]. rewrite app_nil_r in E2.
        exists s, ds, (47 :: y :: t2). rewrite <- E1. split; [reflexivity|]. split; [exact Ss|]. split; [exact F|].
        split; [exact Nd|]. right. right. split; [apply Nds; exact Nc|].
        exists (y :: t2). split; [reflexivity|]. split; [discriminate|]. rewrite E2. exact F2.
      * intros X. exists s, ds, (c :: t2). rewrite <- E1. split; [reflexivity|]. split; [exact Ss|]. split; [exact F|].
        split; [exact Nd|]. left. split; [apply Nds; exact Nc|]. apply exponent_text; assumption.
Qed.

Lemma classify_number base tok : 2 <= base <= 36 -> classify base tok <> CSym -> number_like base tok.
Proof.
  intros Hb. destruct tok as [|c r]; cbn [classify]; [congruence|].
  destruct (is_sign c) eqn:Sg.
  - intros X. change (c :: r) with ([c] ++ r). apply classify_body_number; auto.
    + unfold is_sign in Sg. apply orb_true_iff in Sg. right. destruct Sg as [Sg|Sg]; zb; subst; auto.
    + intros Y. cbn [app] in Y. inversion Y; subst. discriminate Sg.
  - destruct (Z.eqb_spec c 46) as [Ec|Nc].
    + destruct r as [|d r]; [congruence|]. intros X. change (c :: d :: r) with ([] ++ (c :: d :: r)).
      apply classify_body_number; auto; [left; reflexivity|discriminate].
    + intros X. change (c :: r) with ([] ++ (c :: r)).
      apply classify_body_number; auto; [left; reflexivity|]. cbn [app]. intros Y. inversion Y; subst. apply Nc. reflexivity.
Qed.

(** A token that begins with a colon is a symbol *)
Lemma classify_colon base r : base <= 36 -> classify base (58 :: r) = CSym.
Proof.
  intros Hb. unfold classify. change (is_sign 58) with false. change (58 =? 46) with false. cbv iota.
  unfold classify_body. change (58 =? 46) with false.
  assert (D : is_digit base 58 = false).
  { unfold is_digit. change (58 <? 48) with false. cbv iota. destruct (Z.leb_spec base 10); [apply Z.ltb_ge; lia|reflexivity]. }
  rewrite D. reflexivity.
Qed.

(** ** Symbols *)

Lemma read1_const base f c r : syntax c = Constituent ->
  read1 base (S f) (c :: r) =
  read2 base (read2_loop false false [to_upper c] 1 (if package_marker c then Some 0%nat else None) r).
Proof. intros H. cbn [read1]. rewrite H. reflexivity. Qed.

(** The printed symbol is read by [read1]; the condition on the first byte is not needed here. *)
Lemma read1_symbol base down (kw : bool) name txt f rest : 2 <= base <= 36 ->
  Forall name_char name -> (length name + (if kw then 1 else 0) < 1024)%nat ->
  ((length name <= 383)%nat \/ ~ In 124 name) ->
  (kw = false -> Forall (digit_of base) name \/ ~ number_like base name) ->
  printsym base down kw name = Some txt -> delimiter rest ->
  read1 base (S f) (txt ++ rest) = Val (DSym kw name) rest.
Proof.
  intros Hb Fc Ln Lb Nn Pr D. unfold printsym in Pr.
  destruct (escape base name) eqn:E.
  - cbn [negb andb] in Pr. rewrite (name_loop_escaped name Lb) in Pr. inversion Pr; subst txt; clear Pr.
    destruct kw; cbn [app].
    + rewrite read1_const by reflexivity. change (to_upper 58) with 58. change (package_marker 58) with true. cbv iota.
      rewrite <- app_assoc. cbn [app]. cbn [read2_loop]. change (MAXTOKENLENGTH <=? 1)%nat with false. cbv iota.
      change (syntax 124) with MultiEscape. cbv iota.
      rewrite read2_loop_bars by (auto; lia). reflexivity.
    + cbn [read1]. change (syntax 124) with MultiEscape. cbv iota. rewrite <- app_assoc. cbn [app].
      rewrite read2_loop_bars by (auto; lia). reflexivity.
  - cbn [negb] in Pr. rewrite Bool.andb_true_l in Pr.
    unfold escape in E. apply orb_false_iff in E. destruct E as [E1 E2].
    assert (Fe : Forall (fun c => syntax c = Constituent /\ c <> 58 /\ c <> 124 /\ islower c = false) name).
    { apply Forall_forall. intros c Hc. apply escape_char_no. destruct (escape_char c) eqn:X; [|reflexivity].
      exfalso. assert (existsb escape_char name = true) by (apply existsb_exists; exists c; auto). congruence. }
    assert (Nb : ~ In 124 name).
    { intros X. rewrite Forall_forall in Fe. destruct (Fe 124 X) as (_ & _ & Y & _). congruence. }
    rewrite (name_loop_nobar down name Nb) in Pr. inversion Pr; subst txt; clear Pr.
    set (t := map (fun c => if down then to_lower c else c) name).
    assert (Ft : Forall (fun c => syntax c = Constituent /\ c <> 58) t).
    { unfold t. apply Forall_forall. intros c Hc. apply in_map_iff in Hc. destruct Hc as (c0 & <- & H0).
      rewrite Forall_forall in Fe. destruct (Fe c0 H0) as (A & B & _ & _). destruct down; [apply lower_const|]; auto. }
    assert (Ut : map to_upper t = name).
    { unfold t. rewrite map_map. rewrite <- (map_id name) at 2. apply map_ext_in. intros c Hc.
      rewrite Forall_forall in Fe. destruct (Fe c Hc) as (_ & _ & _ & B). destruct down; [apply upper_lower|apply upper_id]; auto. }
    assert (Lt : length t = length name) by (unfold t; apply map_length).
    clearbody t.
    destruct kw; cbn [app].
    + rewrite read1_const by reflexivity. change (to_upper 58) with 58. change (package_marker 58) with true. cbv iota.
      rewrite read2_loop_plain by (auto; lia). rewrite Ut. cbn [rev app read2].
      rewrite classify_colon by lia. reflexivity.
    + destruct t as [|c t].
      { cbn [map] in Ut. subst name. cbn [forallb] in E2. discriminate E2. }
      inversion Ft as [|? ? [Sc Nc] Ft']; subst.
      cbn [app]. rewrite read1_const by exact Sc. unfold package_marker. apply Z.eqb_neq in Nc. rewrite Nc.
      cbn [length] in Lt. rewrite read2_loop_plain by (auto; lia). cbn [rev app].
      change (to_upper c :: map to_upper t) with (map to_upper (c :: t)). cbn [read2].
      destruct (classify base (map to_upper (c :: t))) eqn:K.
      * reflexivity.
      * exfalso. destruct (Nn eq_refl) as [X|X].
        -- assert (forallb (is_digit base) (map to_upper (c :: t)) = true).
           { apply forallb_forall. intros x Hx. rewrite Forall_forall in X. apply digit_is; auto. }
           congruence.
        -- apply X. apply classify_number; auto. rewrite K. discriminate.
      * exfalso. destruct (Nn eq_refl) as [X|X].
        -- assert (forallb (is_digit base) (map to_upper (c :: t)) = true).
           { apply forallb_forall. intros x Hx. rewrite Forall_forall in X. apply digit_is; auto. }
           congruence.
        -- apply X. apply classify_number; auto. rewrite K. discriminate.
Qed.
