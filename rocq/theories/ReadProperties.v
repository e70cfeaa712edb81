(** C39-C41: printed strings, symbols and nested data read back. *)
From Verif Require Import Word BigModel BigSpec IntTextModel ReadModel ReadSpec ReadProofs2.
From Coq Require Import Lia.

(** ** C39.  Every byte string, whatever follows it in the text. *)
Theorem C39_string_roundtrip : forall base s rest, Forall byte s ->
  reader base (2 * length (printstr s ++ rest)) (printstr s ++ rest) = Val (DStr s) rest.
Proof. exact print_read_string. Qed.
Print Assumptions C39_string_roundtrip.

(** A string with a double quote, a backslash, a NUL, a newline, byte 255 and a semicolon, followed by more text *)
Example C39_ex : let s := [97; 34; 98; 92; 0; 10; 255; 59] in
  Forall byte s /\ printstr s = [34; 97; 92; 34; 98; 92; 92; 0; 10; 255; 59; 34] /\
  reader 10 40 (printstr s ++ [65; 34]) = Val (DStr s) [65; 34].
Proof.
  cbv zeta. split; [|split; vm_compute; reflexivity].
  repeat (apply Forall_cons; [unfold byte; lia|]). apply Forall_nil.
Qed.

(** ** C40.  Full statement:
    forall base down kw name, 2 <= base <= 36 -> Forall byte name ->
      exists txt, printsym base down kw name = Some txt /\ read_text base txt = Val (DSym kw name) []. *)
Theorem C40_symbol_roundtrip_partial : forall base down kw name rest,
  2 <= base <= 36 -> name_ok base kw name -> delimiter rest ->
  exists txt, printsym base down kw name = Some txt /\
              reader base (2 * length (txt ++ rest)) (txt ++ rest) = Val (DSym kw name) rest.
Proof. exact print_read_symbol. Qed.
Print Assumptions C40_symbol_roundtrip_partial.

Lemma C40_chars name : forallb (fun c => (32 <=? c) && (c <? 256) && negb (c =? 92)) name = true -> Forall name_char name.
Proof.
  intros H. apply Forall_forall. intros c Hc. rewrite forallb_forall in H. specialize (H c Hc).
  apply andb_prop in H. destruct H as [H N]. apply andb_prop in H. destruct H as [L U].
  apply Z.leb_le in L. apply Z.ltb_lt in U. apply negb_true_iff, Z.eqb_neq in N.
  split; [unfold byte; lia|]. split; [exact N|]. lia.
Qed.

(** The symbol |Foo:b\|r|, the keyword :X-1 and the symbol |12| *)
Example C40_ex :
  name_ok 10 false [70; 111; 111; 58; 98; 124; 114] /\ name_ok 10 true [88; 45; 49] /\ name_ok 10 false [49; 50] /\
  printsym 10 true false [70; 111; 111; 58; 98; 124; 114] = Some [124; 70; 111; 111; 58; 98; 92; 124; 114; 124] /\
  read_text 10 [124; 70; 111; 111; 58; 98; 92; 124; 114; 124] = Val (DSym false [70; 111; 111; 58; 98; 124; 114]) [] /\
  printsym 10 true true [88; 45; 49] = Some [58; 120; 45; 49] /\
  read_text 10 [58; 120; 45; 49] = Val (DSym true [88; 45; 49]) [] /\
  printsym 10 true false [49; 50] = Some [124; 49; 50; 124] /\
  read_text 10 [124; 49; 50; 124] = Val (DSym false [49; 50]) [].
Proof.
  split; [|split; [|split; [|repeat (split; [vm_compute; reflexivity|]); vm_compute; reflexivity]]].
  - split; [apply C40_chars; reflexivity|]. split; [cbn; lia|]. split; [left; cbn; lia|]. intros _. split.
    + right. apply (not_number_like _ 111); [cbn [In]; tauto|cbn [In]; lia|lia].
    + intros c r E. inversion E; subst. lia.
  - split; [apply C40_chars; reflexivity|]. split; [cbn; lia|]. split; [left; cbn; lia|]. intros X; discriminate X.
  - split; [apply C40_chars; reflexivity|]. split; [cbn; lia|]. split; [left; cbn; lia|]. intros _. split.
    + left. apply Forall_cons; [exists 1; split; [lia|reflexivity]|]. apply Forall_cons; [exists 2; split; [lia|reflexivity]|]. apply Forall_nil.
    + intros c r E. inversion E; subst. lia.
Qed.

(** Outside the region.  A name with a backslash: the backslash is not escaped between the bars. *)
Theorem C40_backslash_refuted : exists name txt, Forall byte name /\
  printsym 10 true false name = Some txt /\ read_text 10 txt = Err.
Proof.
  exists [65; 92], [124; 65; 92; 124]. split; [|split; vm_compute; reflexivity].
  repeat (apply Forall_cons; [unfold byte; lia|]). apply Forall_nil.
Qed.
Print Assumptions C40_backslash_refuted.

(** |a\b| reads back as another symbol. *)
Theorem C40_backslash_name_refuted : exists name name' txt, Forall byte name /\ name <> name' /\
  printsym 10 true false name = Some txt /\ read_text 10 txt = Val (DSym false name') [].
Proof.
  exists [65; 92; 66], [65; 66], [124; 65; 92; 66; 124]. split; [|split; [discriminate|split; vm_compute; reflexivity]].
  repeat (apply Forall_cons; [unfold byte; lia|]). apply Forall_nil.
Qed.
Print Assumptions C40_backslash_name_refuted.

(** Symbols named +5, 1E5 and 1/2 print like the integer, the float and the ratio. *)
Theorem C40_number_refuted :
  (exists txt, printsym 10 true false [43; 53] = Some txt /\ read_text 10 txt = Val (DInt (makeint 5)) []) /\
  (exists txt, printsym 10 true false [49; 69; 53] = Some txt /\ read_text 10 txt = Val (DFlt [49; 69; 53]) []) /\
  (exists txt, printsym 10 true false [49; 47; 50] = Some txt /\ read_text 10 txt = Val (DFlt [49; 47; 50]) []).
Proof.
  split; [|split]; eexists; (split; [vm_compute; reflexivity|vm_compute; reflexivity]).
Qed.
Print Assumptions C40_number_refuted.

(** A control character is an error even between bars; a first byte from 128 indexes the syntax table with
    a negative number. *)
Theorem C40_bytes_refuted :
  (exists txt, printsym 10 true false [1] = Some txt /\ read_text 10 txt = Err) /\
  (exists txt, printsym 10 true false [200; 65] = Some txt /\ read_text 10 txt = Undef).
Proof. split; eexists; (split; [vm_compute; reflexivity|vm_compute; reflexivity]). Qed.
Print Assumptions C40_bytes_refuted.

(** A name of 1024 letters is too long for the reader; a bar on byte 255 of a long name is written past
    the printer's buffer. *)
Theorem C40_long_refuted :
  (exists txt, printsym 10 true false (repeat 65 1024) = Some txt /\ read_text 10 txt = Err) /\
  (exists name, length name = 384%nat /\ Forall byte name /\ printsym 10 true false name = None).
Proof.
  split.
  - eexists; (split; [vm_compute; reflexivity|vm_compute; reflexivity]).
  - exists (repeat 124 127 ++ [65; 124] ++ repeat 65 255). split; [reflexivity|]. split; [|vm_compute; reflexivity].
    apply Forall_app. split; [apply Forall_forall; intros c Hc; apply repeat_spec in Hc; subst; unfold byte; lia|].
    apply Forall_app. split; [|apply Forall_forall; intros c Hc; apply repeat_spec in Hc; subst; unfold byte; lia].
    repeat (apply Forall_cons; [unfold byte; lia|]). apply Forall_nil.
Qed.
Print Assumptions C40_long_refuted.

(** ** C41.  Full statement: the same without [datum_ok]'s conditions on names and integers, and without
    the limits on depth and length. *)
Theorem C41_data_roundtrip_partial : forall base down plen lev x rest,
  2 <= base <= 21 -> 0 < plen -> datum_ok base down x -> depth x <= lev -> longest x <= plen -> delimiter rest ->
  exists txt, prin1 base down plen lev x = Some txt /\
              reader base (2 * length (txt ++ rest)) (txt ++ rest) = Val x rest.
Proof. exact print_read_data. Qed.
Print Assumptions C41_data_roundtrip_partial.

(** With the default limits, the text by itself: *)
Theorem C41_default_partial : forall x, datum_ok 10 true x -> depth x <= 65536 -> longest x <= 65536 ->
  exists txt, print_datum 10 true x = Some txt /\ read_text 10 txt = Val x [].
Proof.
  intros x O D L. destruct (print_read_data 10 true 65536 65536 x [] ltac:(lia) ltac:(lia) O D L Logic.I) as (txt & P & R).
  exists txt. rewrite app_nil_r in R. split; [exact P|exact R].
Qed.
Print Assumptions C41_default_partial.

(** An improper list with the elements FOO, a quoted pair of a string and a bignum, a vector holding a
    keyword and a list of two integers, and the tail .X *)
Definition C41_sym (s : list Z) := DSym false s.
Definition C41_x : datum :=
  DCons (C41_sym [70; 79; 79])
    (DCons (DCons QUOTE (DCons (DCons (DStr [97]) (DInt (Big [0; 128]))) NIL))
       (DCons (DVec [DSym true [75]; DCons (DInt (makeint 1)) (DCons (DInt (makeint (-2))) NIL)])
          (C41_sym [46; 88]))).

Lemma C41_name name c : forallb (fun c => (32 <=? c) && (c <? 128) && negb (c =? 92)) name = true ->
  (length name < 300)%nat -> In c name -> ~ In c [43; 45; 46; 47; 69; 68; 70; 76; 101; 100; 102; 108] -> ~ (48 <= c <= 57) ->
  element_name_ok 10 false name.
Proof.
  intros F L Ic N1 N2.
  assert (X : forall x, In x name -> 32 <= x < 128 /\ x <> 92).
  { intros x Hx. rewrite forallb_forall in F. specialize (F x Hx). apply andb_prop in F. destruct F as [F F3].
    apply andb_prop in F. destruct F as [F1 F2]. apply Z.leb_le in F1. apply Z.ltb_lt in F2. apply negb_true_iff, Z.eqb_neq in F3. lia. }
  split.
  - split; [|split; [|split]].
    + apply Forall_forall. intros x Hx. destruct (X x Hx). split; [unfold byte; lia|]. split; [assumption|lia].
    + lia.
    + left; lia.
    + intros _. split; [right; apply (not_number_like _ c); assumption|]. intros d r E. subst name. apply (X d). left; reflexivity.
  - intros _. split.
    + intros E. subst name. destruct Ic as [E|[]]. subst c. apply N1. cbn [In]. tauto.
    + intros d r E. subst name. apply (X d). right; left; reflexivity.
Qed.

Lemma C41_int o txt : canonical o -> print_integer 10 true o = Some txt -> (length txt < 1024)%nat -> int_ok 10 true o.
Proof. intros C P L. split; [exact C|]. intros t E. rewrite P in E. inversion E; subst. exact L. Qed.

Lemma C41_NIL : element_name_ok 10 false [78; 73; 76].
Proof. apply (C41_name _ 78); [reflexivity|cbn; lia|cbn [In]; tauto|cbn [In]; lia|lia]. Qed.

Example C41_hyp : datum_ok 10 true C41_x /\ depth C41_x <= 65536 /\ longest C41_x <= 65536.
Proof.
  split; [|vm_compute; split; discriminate].
  assert (A1 : element_name_ok 10 false [70; 79; 79]).
  { apply (C41_name _ 79); [reflexivity|cbn; lia|cbn [In]; tauto|cbn [In]; lia|lia]. }
  assert (A2 : element_name_ok 10 false [81; 85; 79; 84; 69]).
  { apply (C41_name _ 81); [reflexivity|cbn; lia|cbn [In]; tauto|cbn [In]; lia|lia]. }
  assert (A3 : element_name_ok 10 false [46; 88]).
  { apply (C41_name _ 88); [reflexivity|cbn; lia|cbn [In]; tauto|cbn [In]; lia|lia]. }
  assert (A4 : element_name_ok 10 true [75]).
  { split; [|intros X; discriminate X]. split; [apply C40_chars; reflexivity|]. split; [cbn; lia|]. split; [left; cbn; lia|].
    intros X; discriminate X. }
  assert (A5 : Forall byte [97]) by (apply Forall_cons; [unfold byte; lia|apply Forall_nil]).
  assert (A6 : int_ok 10 true (Big [0; 128])).
  { eapply C41_int; [|vm_compute; reflexivity|cbn; lia].
    cbn. unfold in_long, fixnum_range. lia. }
  assert (A7 : int_ok 10 true (makeint 1)).
  { eapply C41_int; [|vm_compute; reflexivity|cbn; lia]. cbn. unfold in_long. lia. }
  assert (A8 : int_ok 10 true (makeint (-2))).
  { eapply C41_int; [|vm_compute; reflexivity|cbn; lia]. cbn. unfold in_long. lia. }
  exact (conj A1 (conj (conj A2 (conj (conj A5 A6) C41_NIL))
        (conj (conj A4 (conj (conj A7 (conj A8 C41_NIL)) Logic.I)) A3))).
Qed.

(** (foo '("a" . 1180591620717411303424) #(:k (1 -2)) . .x) *)
Example C41_ex : exists txt, print_datum 10 true C41_x = Some txt /\ read_text 10 txt = Val C41_x [].
Proof. eexists. split; [vm_compute; reflexivity|vm_compute; reflexivity]. Qed.

(** Outside the region.  The symbol named by a dot inside a list makes a dotted pair. *)
Theorem C41_dot_refuted : exists x y txt, x <> y /\
  print_datum 10 true x = Some txt /\ read_text 10 txt = Val y [].
Proof.
  exists (DCons (C41_sym [65]) (DCons (C41_sym [46]) (DCons (C41_sym [66]) NIL))), (DCons (C41_sym [65]) (C41_sym [66])).
  eexists. split; [discriminate|]. split; [vm_compute; reflexivity|vm_compute; reflexivity].
Qed.
Print Assumptions C41_dot_refuted.

(** A list of 65537 elements is cut off even when *print-length* is NIL, and reads as a list with the
    symbol named by three dots at its end. *)
Fixpoint C41_zeros (n : nat) (d : datum) : datum :=
  match n with O => d | S n => DCons (C41_sym [65]) (C41_zeros n d) end.
Definition C41_answer (x : datum) : option datum :=
  match print_datum 10 true x with
  | Some txt => match read_text 10 txt with Val y _ => Some y | _ => None end
  | None => None
  end.
Fixpoint C41_last (x : datum) : datum := match x with DCons a (DCons _ _ as d) => C41_last d | DCons a d => a | x => x end.
Theorem C41_length_refuted : exists x, option_map C41_last (C41_answer x) = Some (C41_sym [46; 46; 46]) /\
  C41_last x = C41_sym [65].
Proof. exists (C41_zeros (Z.to_nat 65537) NIL). split; vm_compute; reflexivity. Qed.
Print Assumptions C41_length_refuted.
