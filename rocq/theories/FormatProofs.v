(** Proofs for C97. *)
From Coq Require Import Lia.
From Verif Require Import Word BigModel BigSpec BigProofs3 BitsModel IntTextModel FormatModel FormatSpec.
Open Scope Z_scope.

(** * parameters *)
Lemma isdigit_true : forall c, is_digit c -> isdigit c = true.
Proof. unfold is_digit, isdigit. intros c H. destruct (Z.leb_spec 48 c); [|lia]. destruct (Z.leb_spec c 57); [reflexivity | lia]. Qed.
Lemma isdigit_false : forall c, ~ is_digit c -> isdigit c = false.
Proof. unfold is_digit, isdigit. intros c H. destruct (Z.leb_spec 48 c); [|reflexivity]. destruct (Z.leb_spec c 57); [lia | reflexivity]. Qed.
Lemma decimal_ge : forall d v, Forall is_digit d -> 0 <= v -> v <= decimal d v.
Proof.
  induction d as [|c d IH]; intros v D V; cbn [decimal]; [lia|]. inversion D as [|? ? D1 D2]; subst. unfold is_digit in D1.
  specialize (IH (10 * v + (c - 48)) D2 ltac:(lia)). lia.
Qed.
Lemma read_digits : forall d v ps s, Forall is_digit d -> 0 <= v -> decimal d v < 2 ^ 31 ->
  read_params (d ++ s) (Some v) ps = read_params s (Some (decimal d v)) ps.
Proof.
  induction d as [|c d IH]; intros v ps s D V B; [reflexivity|]. inversion D as [|? ? D1 D2]; subst. cbn [decimal] in B.
  cbn [app read_params decimal]. rewrite (isdigit_true c D1). unfold is_digit in D1.
  pose proof (decimal_ge d (10 * v + (c - 48)) D2 ltac:(lia)).
  replace (v * 10 + (c - 48)) with (10 * v + (c - 48)) by lia.
  destruct (Z.leb_spec (2 ^ 31) (10 * v + (c - 48))); [lia|]. apply IH; [exact D2 | lia | exact B].
Qed.
Lemma read_number : forall d ps s, d <> [] -> Forall is_digit d -> decimal d 0 < 2 ^ 31 -> len ps < 10 ->
  read_params (d ++ s) None ps = read_params s (Some (decimal d 0)) ps.
Proof.
  intros [|c d] ps s N D B L; [congruence|]. inversion D as [|? ? D1 D2]; subst. cbn [app read_params decimal]. rewrite (isdigit_true c D1).
  destruct (Z.leb_spec 10 (len ps)); [lia|]. unfold is_digit in D1. cbn [decimal] in B.
  change (10 * 0 + (c - 48)) with (c - 48) in *. apply read_digits; [exact D2 | lia | exact B].
Qed.
Definition good (d : list Z) : Prop := d <> [] /\ Forall is_digit d /\ decimal d 0 < 2 ^ 31.
Lemma len_snoc : forall ps v, len (ps ++ [v]) = len ps + 1.
Proof. intros. unfold len. rewrite app_length. cbn [length]. lia. Qed.
Lemma join_cons : forall p q r, join (p :: q :: r) = p ++ 44 :: join (q :: r).
Proof. reflexivity. Qed.
Lemma params_ok : forall ps (comma : bool) c s acc, Forall good ps -> len acc + Z.of_nat (length ps) <= 10 -> (comma = true -> ps <> []) ->
  ~ is_digit c -> (c = 44 -> ps = [] \/ comma = true) ->
  read_params (join ps ++ (if comma then [44] else []) ++ c :: s) None acc = Params (acc ++ numbers ps) c s.
Proof.
  induction ps as [|p r IH]; intros comma c s acc G L CM ND CC.
  - destruct comma; [exfalso; apply CM; reflexivity|]. cbn [join app read_params]. rewrite isdigit_false by exact ND. unfold numbers. cbn [map].
    rewrite app_nil_r. reflexivity.
  - inversion G as [|? ? [G1 [G2 G3]] G4]; subst. cbn [length] in L.
    assert (F44 : isdigit 44 = false) by reflexivity.
    destruct r as [|q r].
    + cbn [join]. rewrite <- ?app_assoc. rewrite read_number; [|assumption|assumption|assumption|lia].
      unfold numbers. cbn [map]. destruct comma; cbn [app read_params].
      * rewrite F44. cbn [Z.eqb Pos.eqb]. rewrite isdigit_false by exact ND. reflexivity.
      * rewrite isdigit_false by exact ND. destruct (Z.eqb_spec c 44) as [E|E]; [destruct (CC E) as [Q|Q]; discriminate | reflexivity].
    + rewrite join_cons, <- app_assoc. cbn [app]. rewrite read_number; [|assumption|assumption|assumption|lia].
      cbn [read_params]. rewrite F44. cbn [Z.eqb Pos.eqb]. rewrite IH.
      * rewrite <- app_assoc. reflexivity.
      * exact G4.
      * rewrite len_snoc. lia.
      * intros _. discriminate.
      * exact ND.
      * intros E. destruct (CC E) as [Q|Q]; [discriminate | right; exact Q].
Qed.
Lemma params_cut : forall ps (comma : bool) acc, Forall good ps -> len acc + Z.of_nat (length ps) <= 10 -> (comma = true -> ps <> []) ->
  read_params (join ps ++ (if comma then [44] else [])) None acc = Ended.
Proof.
  induction ps as [|p r IH]; intros comma acc G L CM.
  - destruct comma; [exfalso; apply CM; reflexivity | reflexivity].
  - inversion G as [|? ? [G1 [G2 G3]] G4]; subst. cbn [length] in L. destruct r as [|q r].
    + cbn [join]. rewrite read_number; [|assumption|assumption|assumption|lia]. destruct comma; reflexivity.
    + rewrite join_cons, <- app_assoc. cbn [app]. rewrite read_number; [|assumption|assumption|assumption|lia].
      cbn [read_params]. change (isdigit 44) with false. cbn [Z.eqb Pos.eqb]. cbv iota. apply IH; [exact G4 | rewrite len_snoc; lia | intros _; discriminate].
Qed.

(** * directives *)
Lemma plain_write : forall acts t n, plain acts t -> write acts n = (t, n + len t).
Proof.
  intros acts t n H. revert n. induction H as [|t r u H IH]; intros n; cbn [write].
  - unfold len. cbn [length]. f_equal. lia.
  - rewrite IH. f_equal. unfold len. rewrite app_length. lia.
Qed.
Lemma app_inv_sign : forall (a b : list Z) (s : list Z), s ++ a = s ++ b -> a = b.
Proof. intros a b s H. exact (app_inv_head s a b H). Qed.
Lemma repeat_len : forall (x : Z) k, Z.of_nat (length (repeat x (Z.to_nat k))) = Z.max 0 k.
Proof. intros. rewrite repeat_length. lia. Qed.
Lemma number_field_eq : forall f1 f2 (neg : bool) w j k, 
  let sign := if neg then [45] else [] in
  k = f2 - len w - (if neg then 1 else 0) ->
  Z.max 0 j = Z.max 0 (f1 - Z.max f2 (len w + if neg then 1 else 0)) ->
  number_field f1 f2 sign w (spaces j ++ sign ++ zeros k ++ w).
Proof.
  intros f1 f2 neg w j k sign K J. unfold number_field, spaces, zeros. cbv zeta.
  assert (LS : Z.of_nat (length sign) = if neg then 1 else 0) by (unfold sign; destruct neg; reflexivity).
  assert (E : Z.to_nat (f2 - Z.of_nat (length (sign ++ w))) = Z.to_nat k) by (rewrite app_length; unfold len in K; lia).
  rewrite E. f_equal. f_equal. rewrite !app_length, !repeat_length. unfold len in *. destruct neg; lia.
Qed.
Lemma printnum_field : forall base down a r o t out p0 p1, int a = Some o -> canonical o -> print_integer base down o = Some (minus o ++ t) ->
  (match o with Imm _ => True | Big _ => 0 <= value o \/ p1 <= Z.of_nat (length t) end) ->
  number_field p0 p1 (minus o) t out -> printnum base down a p0 p1 r = Out out r.
Proof.
  intros base down a r o t out p0 p1 I C P SC NF. unfold printnum. rewrite I. destruct o as [w|ds].
  - assert (V : intval (Imm w) = value (Imm w)) by (apply intval_imm; destruct C; split; assumption).
    unfold print_integer, printint in P. rewrite V in *. unfold minus in *. set (v := value (Imm w)) in *. clearbody v.
    unfold printint_field. cbv zeta in *. destruct (printint_loop 65 base down _ []) as [u|]; [|discriminate].
    injection P as P. apply app_inv_sign in P. subst u.
    assert (H := number_field_eq p0 p1 (v <? 0) t). cbv zeta in H. unfold number_field in NF, H. cbv zeta in NF, H. rewrite NF. f_equal. apply H.
    + destruct (v <? 0); lia.
    + destruct (v <? 0); [destruct (Z.ltb_spec (len t + 1) p1) | destruct (Z.ltb_spec (len t) p1)]; lia.
  - destruct C as [W _]. pose proof (top_sign ds W) as TS. unfold print_integer, printbig in P. unfold printbig_field, minus in *. cbn [value] in *. cbv zeta in *.
    assert (SG : (big_sign ds <? 0) = (bigval ds <? 0)).
    { unfold big_sign. destruct (Z.ltb_spec (last ds 0) 0), (Z.ltb_spec (bigval ds) 0); try reflexivity; lia. }
    rewrite SG in *. destruct (printbig_loop _ base down _ []) as [u|]; [|discriminate].
    injection P as P. apply app_inv_sign in P. subst u.
    assert (H := number_field_eq p0 p1 (bigval ds <? 0) t). cbv zeta in H. unfold number_field in NF, H. cbv zeta in NF, H. rewrite NF. f_equal. apply H.
    + destruct (bigval ds <? 0); lia.
    + unfold len in *. destruct (Z.ltb_spec (bigval ds) 0); destruct (Z.ltb_spec p1 (Z.of_nat (length t))); lia.
Qed.
Lemma sprintf_ok : forall t r, (length t < 256)%nat -> sprintf t r = Out t r.
Proof. intros t r H. unfold sprintf, len. destruct (Z.ltb_spec (Z.of_nat (length t)) 256); [reflexivity | lia]. Qed.
Lemma cut_zeros_stop : forall l, (forall d e r, l = 48 :: d :: e :: r -> d = 46) -> cut_zeros l = l.
Proof.
  intros [|c [|d [|e r]]] H; try reflexivity. cbn [cut_zeros]. destruct (Z.eqb_spec c 48) as [->|]; [|reflexivity].
  rewrite (H d e r eq_refl). reflexivity.
Qed.
Lemma cut_zeros_go : forall k d e r, d <> 46 -> (forall x y z, d :: e :: r = 48 :: x :: y :: z -> x = 46) ->
  cut_zeros (repeat 48 k ++ d :: e :: r) = d :: e :: r.
Proof.
  induction k as [|k IH]; intros d e r D H; [apply cut_zeros_stop; exact H|].
  specialize (IH d e r D H). cbn [repeat app]. destruct k as [|k].
  - cbn [repeat app] in *. cbn [cut_zeros]. destruct (Z.eqb_spec d 46); [contradiction|]. cbn [Z.eqb Pos.eqb andb negb]. exact IH.
  - cbn [repeat app] in *. destruct (repeat 48 k ++ d :: e :: r) as [|x l] eqn:Q; [destruct k; discriminate|].
    change (cut_zeros (48 :: 48 :: x :: l)) with (cut_zeros (48 :: x :: l)). exact IH.
Qed.
Lemma rev_repeat : forall (x : Z) k, rev (repeat x k) = repeat x k.
Proof.
  intros x k. induction k as [|k IH]; [reflexivity|]. cbn [repeat rev]. rewrite IH.
  clear IH. induction k as [|k IH]; [reflexivity|]. cbn [repeat app]. rewrite IH. reflexivity.
Qed.
Lemma trimmed_cut : forall t out, trimmed t out -> rev (cut_zeros (rev t)) = out.
Proof.
  intros t out [k [E [K H]]]. rewrite E, rev_app_distr, rev_repeat. rewrite <- (rev_involutive out) at 2. f_equal.
  assert (ST : forall d e r, rev out = 48 :: d :: e :: r -> d = 46).
  { intros d e r Q. assert (Q2 : out = (rev (e :: r) ++ [d]) ++ [48]).
    { rewrite <- (rev_involutive out), Q. cbn [rev]. reflexivity. }
    destruct (H _ Q2) as [L|[w W]].
    - rewrite app_length in L. cbn [rev length] in L. rewrite app_length in L. cbn [length] in L. lia.
    - apply app_inj_tail in W. apply W. }
  destruct K as [->|[u [c [d [Q D]]]]]; [cbn [repeat app]; apply cut_zeros_stop, ST|].
  assert (Q3 : rev out = d :: c :: rev u) by (rewrite Q, rev_app_distr; reflexivity).
  rewrite Q3 in *. apply cut_zeros_go; [exact D|]. intros x y z. apply ST.
Qed.
Lemma ckintval_small : forall o z, canonical o -> value o = z -> - 2 ^ 31 <= z < 2 ^ 31 -> ckintval o = Some z.
Proof.
  intros [w|ds] z C V B.
  - cbn [ckintval]. f_equal. rewrite <- V. apply intval_imm. destruct C; split; assumption.
  - exfalso. destruct C as [_ [C _]]. apply C. cbn [value] in V. unfold fixnum_range. lia.
Qed.
Lemma directive_ok : forall down ps c args t r, meaning down ps c args t r -> directive down c (nth 0 ps 0) (nth 1 ps 1) args = Out t r.
Proof.
  intros down ps c args t r H. destruct H.
  - unfold directive. cbn [Z.eqb Pos.eqb]. rewrite (plain_write _ _ 0 H). unfold left_field, spaces, len in *. rewrite H0. reflexivity.
  - unfold directive. cbn [Z.eqb Pos.eqb]. rewrite (plain_write _ _ 0 H). unfold left_field, spaces, len in *. rewrite H0. reflexivity.
  - unfold directive. destruct H as [[-> ->]|[[-> ->]|[-> ->]]]; cbn [Z.eqb Pos.eqb]; exact (printnum_field _ _ _ _ _ _ _ _ _ H0 H1 H2 H3 H4).
  - unfold directive. destruct H as [->|[->| ->]]; cbn [Z.eqb Pos.eqb]; unfold printnum; rewrite H0, H1; reflexivity.
  - unfold directive. cbn [Z.eqb Pos.eqb]. rewrite H, (ckintval_small o (value o) H0 eq_refl) by lia. rewrite Z.mod_small by lia. reflexivity.
  - unfold directive. cbn [Z.eqb Pos.eqb]. rewrite H. apply sprintf_ok, H0.
  - unfold directive. cbn [Z.eqb Pos.eqb]. rewrite H. apply sprintf_ok, H0.
  - unfold directive. cbn [Z.eqb Pos.eqb]. rewrite H, H0. reflexivity.
  - unfold directive. cbn [Z.eqb Pos.eqb]. rewrite H, H0, H1. apply sprintf_ok, H2.
  - unfold directive. cbn [Z.eqb Pos.eqb]. rewrite H, H0, H1, sprintf_ok by exact H2. rewrite (trimmed_cut _ _ H3). reflexivity.
  - subst ps. destruct H as [-> | ->]; reflexivity.
  - reflexivity.
  - reflexivity.
  - unfold directive. cbn [In] in H.
    repeat match goal with |- context [c =? ?k] => destruct (Z.eqb_spec c k) as [E|_]; [exfalso; apply H; rewrite E; tauto|] end. reflexivity.
Qed.

(** * the loop *)
Definition ended (ps : list (list Z)) := numbers ps.
Lemma upper_capital : forall c, upper c = capital c.
Proof. reflexivity. Qed.
Lemma not_v : forall c, ~ is_v c -> (capital c =? 86) = false.
Proof.
  intros c H. unfold is_v, capital in *. apply Z.eqb_neq. destruct (Z.leb_spec 97 c), (Z.leb_spec c 122); cbn [andb]; lia.
Qed.
Lemma is_v_char : forall x, is_v x -> (capital x =? 86) = true /\ ~ is_digit x /\ x <> 44.
Proof. intros x [-> | ->]; (split; [reflexivity|]); unfold is_digit; lia. Qed.
Lemma wrap32_id : forall z, - 2 ^ 31 <= z < 2 ^ 31 -> wrap32 z = z.
Proof. intros z H. unfold wrap32. rewrite Z.mod_small by lia. lia. Qed.
Lemma numbers_len : forall ps, len (numbers ps) = Z.of_nat (length ps).
Proof. intros. unfold len, numbers. rewrite map_length. reflexivity. Qed.
(** one directive read *)
Lemma read_none : forall fuel down ps comma letter s args out, well (Dir ps comma None letter) ->
  format_loop (S fuel) down (text (Dir ps comma None letter) ++ s) args out =
  match directive down (capital letter) (nth 0 (numbers ps) 0) (nth 1 (numbers ps) 1) args with
  | Out t args => format_loop fuel down s args (out ++ t) | Bad e => Fail e out | Ub => Undefined end.
Proof.
  intros fuel down ps comma letter s args out [W1 [W2 [W3 [W4 [W5 W6]]]]]. cbn [text app format_loop]. change (126 =? 126) with true. cbv iota zeta.
  rewrite <- !app_assoc. cbn [app]. rewrite (params_ok ps comma letter s []); [|exact W1 | unfold len; cbn [length]; lia | exact W3 | exact W5 | exact W6].
  cbn [app]. rewrite upper_capital, (not_v letter W4). reflexivity.
Qed.
Lemma read_v : forall fuel down ps comma x letter s a o args out, well (Dir ps comma (Some x) letter) ->
  int a = Some o -> canonical o -> - 2 ^ 31 <= value o < 2 ^ 31 ->
  format_loop (S fuel) down (text (Dir ps comma (Some x) letter) ++ s) (a :: args) out =
  match directive down (capital letter) (nth 0 (numbers ps ++ [value o]) 0) (nth 1 (numbers ps ++ [value o]) 1) args with
  | Out t args => format_loop fuel down s args (out ++ t) | Bad e => Fail e out | Ub => Undefined end.
Proof.
  intros fuel down ps comma x letter s a o args out [W1 [W2 [W3 W4]]] IA C B. destruct (is_v_char x W4) as [V1 [V2 V3]].
  cbn [text app format_loop]. change (126 =? 126) with true. cbv iota zeta.
  rewrite <- !app_assoc. cbn [app]. rewrite (params_ok ps comma x (letter :: s) []); [|exact W1 | unfold len; cbn [length]; lia | exact W3 | exact V2 | intros E; contradiction].
  cbn [app]. rewrite upper_capital, V1. rewrite IA, (ckintval_small o (value o) C eq_refl B).
  rewrite numbers_len. destruct (Z.leb_spec 10 (Z.of_nat (length ps))); [lia|]. rewrite (wrap32_id _ B), upper_capital. reflexivity.
Qed.
Lemma read_lit : forall fuel down c s args out, c <> 126 ->
  format_loop (S fuel) down (c :: s) args out = format_loop fuel down s args (out ++ [c]).
Proof. intros fuel down c s args out H. cbn [format_loop]. destruct (Z.eqb_spec c 126); [contradiction | reflexivity]. Qed.
Lemma pieces_ok : forall down l args out rest, renders down l args out rest -> Forall well l -> forall fuel s out0,
  format_loop (length l + fuel) down (texts l ++ s) args out0 = format_loop fuel down s rest (out0 ++ out).
Proof.
  intros down l args out rest H. induction H as [args | c l args out rest H IH | ps comma letter l args t args1 out rest M H IH
    | ps comma x letter l a o args t args1 out rest IA C B M H IH]; intros W fuel s out0.
  - rewrite app_nil_r. reflexivity.
  - inversion W as [|? ? W1 W2]; subst. cbn [length texts text app plus]. rewrite read_lit by exact W1. rewrite (IH W2), <- app_assoc. reflexivity.
  - inversion W as [|? ? W1 W2]; subst. cbn [length texts plus]. rewrite <- app_assoc, read_none by exact W1.
    rewrite (directive_ok _ _ _ _ _ _ M), (IH W2), <- app_assoc. reflexivity.
  - inversion W as [|? ? W1 W2]; subst. cbn [length texts plus]. rewrite <- app_assoc, (read_v _ _ _ _ _ _ _ _ o) by assumption.
    rewrite (directive_ok _ _ _ _ _ _ M), (IH W2), <- app_assoc. reflexivity.
Qed.
Lemma texts_length : forall l, (length l <= length (texts l))%nat.
Proof.
  induction l as [|p l IH]; [cbn; lia|]. cbn [texts length]. rewrite app_length. assert (1 <= length (text p))%nat; [|lia].
  destruct p; cbn [text length]; lia.
Qed.
Lemma texts_app : forall l m, texts (l ++ m) = texts l ++ texts m.
Proof. induction l as [|p l IH]; intros m; [reflexivity|]. cbn [texts app]. rewrite IH, app_assoc. reflexivity. Qed.
(** the loop gets to whatever follows the pieces, with enough fuel left for it *)
Lemma pieces_then : forall down l args out rest s, renders down l args out rest -> Forall well l ->
  exists fuel, (length s <= fuel)%nat /\ XFORMAT down (texts l ++ s) args = format_loop (S fuel) down s rest out.
Proof.
  intros down l args out rest s H W. unfold XFORMAT. pose proof (texts_length l) as L. rewrite app_length.
  exists (length (texts l) + length s - length l)%nat. split; [lia|].
  replace (S (length (texts l) + length s))%nat with (length l + S (length (texts l) + length s - length l))%nat by lia.
  rewrite (pieces_ok _ _ _ _ _ H W). reflexivity.
Qed.
Lemma format_ok : forall down l args out rest, renders down l args out rest -> Forall well l -> XFORMAT down (texts l) args = Done out.
Proof.
  intros down l args out rest H W. destruct (pieces_then down l args out rest [] H W) as [fuel [_ E]]. rewrite app_nil_r in E. rewrite E. reflexivity.
Qed.
Lemma format_missing : forall down l args out ps comma letter s, renders down l args out [] -> Forall well l ->
  well (Dir ps comma None letter) -> takes letter -> XFORMAT down (texts l ++ text (Dir ps comma None letter) ++ s) args = Fail MismatchArg out.
Proof.
  intros down l args out ps comma letter s H W W1 T. destruct (pieces_then down l args out [] (text (Dir ps comma None letter) ++ s) H W) as [fuel [_ E]].
  rewrite E, read_none by exact W1. unfold takes in T. set (c := capital letter) in *. clearbody c. unfold directive. cbn [In] in T.
  destruct T as [<-|[<-|[<-|[<-|[<-|[<-|[<-|[<-|[<-|[]]]]]]]]]]; reflexivity.
Qed.
Lemma format_missing_v : forall down l args out ps comma x letter s, renders down l args out [] -> Forall well l ->
  well (Dir ps comma (Some x) letter) -> XFORMAT down (texts l ++ text (Dir ps comma (Some x) letter) ++ s) args = Fail MismatchArg out.
Proof.
  intros down l args out ps comma x letter s H W [W1 [W2 [W3 W4]]]. destruct (is_v_char x W4) as [V1 [V2 V3]].
  destruct (pieces_then down l args out [] (text (Dir ps comma (Some x) letter) ++ s) H W) as [fuel [_ E]]. rewrite E.
  cbn [text app format_loop]. change (126 =? 126) with true. cbv iota zeta.
  rewrite <- !app_assoc. cbn [app]. rewrite (params_ok ps comma x (letter :: s) []); [|exact W1 | unfold len; cbn [length]; lia | exact W3 | exact V2 | intros Q; contradiction].
  cbn [app]. rewrite upper_capital, V1. reflexivity.
Qed.
Lemma format_cut : forall down l args out rest s, renders down l args out rest -> Forall well l -> beginning s ->
  XFORMAT down (texts l ++ s) args = Fail FormatString out.
Proof.
  intros down l args out rest s H W [ps [comma [-> [CM [L G]]]]].
  destruct (pieces_then down l args out rest (126 :: join ps ++ (if comma then [44] else [])) H W) as [fuel [_ E]]. rewrite E.
  cbn [format_loop]. change (126 =? 126) with true. cbv iota zeta.
  rewrite (params_cut ps comma []); [reflexivity | exact G | unfold len; cbn [length]; lia | exact CM].
Qed.

(** * every control string is made of pieces *)
Lemma is_digit_dec : forall c, {is_digit c} + {~ is_digit c}.
Proof. intros c. unfold is_digit. destruct (Z_le_gt_dec 48 c); [|right; lia]. destruct (Z_le_gt_dec c 57); [left; lia | right; lia]. Qed.
Lemma is_v_dec : forall c, {is_v c} + {~ is_v c}.
Proof. intros c. unfold is_v. destruct (Z.eq_dec c 86); [left; auto|]. destruct (Z.eq_dec c 118); [left; auto | right; tauto]. Qed.
Lemma split_digits : forall s, exists d r, s = d ++ r /\ Forall is_digit d /\ (r = [] \/ exists c t, r = c :: t /\ ~ is_digit c).
Proof.
  induction s as [|c s IH]; [exists [], []; auto|]. destruct (is_digit_dec c) as [D|D].
  - destruct IH as [d [r [-> [F E]]]]. exists (c :: d), r. auto.
  - exists [], (c :: s). split; [reflexivity|]. split; [constructor|]. right. exists c, s. auto.
Qed.
Definition digital (d : list Z) : Prop := d <> [] /\ Forall is_digit d.
Lemma split_params : forall n s, (length s <= n)%nat -> exists ps (comma : bool) r, s = join ps ++ (if comma then [44] else []) ++ r /\
  Forall digital ps /\ (comma = true -> ps <> []) /\ (r = [] \/ exists c t, r = c :: t /\ ~ is_digit c /\ (c = 44 -> ps = [] \/ comma = true)).
Proof.
  induction n as [|n IH]; intros s L.
  - destruct s as [|c s]; [|cbn [length] in L; lia]. exists [], false, []. repeat split; auto; discriminate.
  - destruct (split_digits s) as [d [r [-> [D E]]]]. destruct d as [|x d].
    + exists [], false, r. split; [reflexivity|]. split; [constructor|]. split; [discriminate|].
      destruct E as [->|[c [t [-> N]]]]; [auto | right; exists c, t; auto].
    + set (dd := x :: d) in *. assert (DD : digital dd) by (split; [discriminate | exact D]).
      destruct E as [->|[c [t [-> N]]]].
      * exists [dd], false, []. cbn [join]. split; [reflexivity|]. split; [constructor; [exact DD | constructor]|]. split; [discriminate | auto].
      * destruct (Z.eq_dec c 44) as [->|NC].
        -- destruct (IH t) as [ps [comma [r [E [F [CM T]]]]]]; [rewrite app_length in L; unfold dd in L; cbn [length] in L; lia|].
           destruct ps as [|p ps].
           ++ destruct comma; [exfalso; apply CM; reflexivity|]. cbn [join app] in E. subst t. exists [dd], true, r. cbn [join app].
              split; [reflexivity|]. split; [constructor; [exact DD | constructor]|]. split; [discriminate|].
              destruct T as [->|[c [t [-> [T1 T2]]]]]; [auto | right; exists c, t; auto].
           ++ exists (dd :: p :: ps), comma, r. rewrite join_cons, <- app_assoc. cbn [app]. rewrite <- E. split; [reflexivity|].
              split; [constructor; assumption|]. split; [discriminate|].
              destruct T as [->|[c [u [-> [T1 T2]]]]]; [auto|]. right. exists c, u. split; [reflexivity|]. split; [exact T1|].
              intros Q. destruct (T2 Q) as [Q2|Q2]; [discriminate | auto].
        -- exists [dd], false, (c :: t). cbn [join app]. split; [reflexivity|]. split; [constructor; [exact DD | constructor]|]. split; [discriminate|].
           right. exists c, t. split; [reflexivity|]. split; [exact N|]. intros Q. contradiction.
Qed.
Lemma big_or_good : forall ps, Forall digital ps -> (exists d, In d ps /\ 2 ^ 31 <= decimal d 0) \/ Forall good ps.
Proof.
  induction ps as [|p ps IH]; intros F; [right; constructor|]. inversion F as [|? ? F1 F2]; subst.
  destruct (Z_le_gt_dec (2 ^ 31) (decimal p 0)) as [B|B]; [left; exists p; split; [left; reflexivity | exact B]|].
  destruct (IH F2) as [[d [I1 I2]]|G]; [left; exists d; split; [right; exact I1 | exact I2]|]. right. constructor; [|exact G].
  destruct F1. split; [assumption | split; [assumption | lia]].
Qed.
Lemma every_control : forall s, exists l tail, s = texts l ++ tail /\ Forall well l /\
  (tail = [] \/ beginning tail \/ beginning_v tail \/ oversized tail).
Proof.
  assert (G : forall n s, (length s <= n)%nat -> exists l tail, s = texts l ++ tail /\ Forall well l /\
    (tail = [] \/ beginning tail \/ beginning_v tail \/ oversized tail)).
  { induction n as [|n IH]; intros s L.
    { destruct s as [|c s]; [|cbn [length] in L; lia]. exists [], []. auto. }
    destruct s as [|c s]; [exists [], []; auto|]. cbn [length] in L. destruct (Z.eq_dec c 126) as [->|NC].
    2:{ destruct (IH s ltac:(lia)) as [l [tail [E [W T]]]]. exists (Lit c :: l), tail. split; [cbn [texts text app]; rewrite E; reflexivity|].
        split; [constructor; [exact NC | exact W] | exact T]. }
    destruct (split_params (length s) s (le_n _)) as [ps [comma [r [E [F [CM T]]]]]].
    assert (OV : (10 < length ps)%nat \/ (exists d, In d ps /\ 2 ^ 31 <= decimal d 0) \/ (length ps = 10%nat /\ exists x q, is_v x /\ r = x :: q) ->
      exists l tail, 126 :: s = texts l ++ tail /\ Forall well l /\ (tail = [] \/ beginning tail \/ beginning_v tail \/ oversized tail)).
    { intros O. exists [], (126 :: s). split; [reflexivity|]. split; [constructor|]. right. right. right. exists ps, comma, r. rewrite E. auto. }
    destruct (le_lt_dec (length ps) 10) as [LP|LP]; [|apply OV; auto].
    destruct (big_or_good ps F) as [B|GD]; [apply OV; auto|].
    assert (BG : beginning (126 :: join ps ++ (if comma then [44] else []))).
    { exists ps, comma. split; [reflexivity|]. split; [exact CM|]. split; [lia | exact GD]. }
    destruct T as [->|[c [t [-> [T1 T2]]]]].
    { exists [], (126 :: s). split; [reflexivity|]. split; [constructor|]. right. left. rewrite E, app_nil_r. exact BG. }
    assert (LT : (length t < length s)%nat) by (rewrite E, !app_length; cbn [length]; lia).
    destruct (is_v_dec c) as [V|V].
    - destruct t as [|letter t].
      + exists [], (126 :: s). split; [reflexivity|]. split; [constructor|]. right. right. left.
        exists (126 :: join ps ++ (if comma then [44] else [])), c. split; [exact BG|]. split; [exact V|]. rewrite E. cbn [app]. rewrite <- app_assoc. reflexivity.
      + destruct (Nat.eq_dec (length ps) 10) as [TEN|TEN]; [apply OV; right; right; split; [exact TEN | exists c, (letter :: t); auto]|].
        cbn [length] in LT. destruct (IH t ltac:(lia)) as [l [tail [E2 [W T]]]].
        exists (Dir ps comma (Some c) letter :: l), tail. split.
        * rewrite E. cbn [texts text app]. rewrite <- !app_assoc. cbn [app]. rewrite E2. reflexivity.
        * split; [|exact T]. constructor; [|exact W]. cbn [well]. split; [exact GD|]. split; [lia|]. split; [exact CM | exact V].
    - destruct (IH t ltac:(lia)) as [l [tail [E2 [W T]]]].
      exists (Dir ps comma None c :: l), tail. split.
      + rewrite E. cbn [texts text app]. rewrite <- !app_assoc. cbn [app]. rewrite E2. reflexivity.
      + split; [|exact T]. constructor; [|exact W]. cbn [well]. split; [exact GD|]. split; [lia|]. split; [exact CM|]. split; [exact V | split; [exact T1 | exact T2]]. }
  intros s. exact (G (length s) s (le_n _)).
Qed.
