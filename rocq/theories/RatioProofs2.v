(** Ratios: pairwise difference, printing and reading. *)
From Coq Require Import QArith.
From Verif Require Import Word BigModel BigProofs BigProofs2 BigProofs3 IntTextModel IntTextProofs RatioModel RatioProofs.
Open Scope Z_scope.

(** * /= *)

Lemma neq_inner_ok x : canonical x -> forall early, Forall canonical early ->
  (neq_inner x early = true <-> Forall (fun a => ~ (value a == value x)%Q) early).
Proof.
  intros Cx. induction early as [|a r IH]; intros C; [split; [constructor|reflexivity]|].
  inversion C as [|a' l Ca Cl]; subst a' l. cbn [neq_inner].
  destruct (NUMEQUAL_ok [x; a]) as (b & E & Hb); [cbn; lia|constructor; [assumption|constructor; [assumption|constructor]]|].
  rewrite E. assert (X : b = true <-> (value a == value x)%Q).
  { rewrite Hb. split.
    - intros F. apply F; [right; left; reflexivity|left; reflexivity].
    - intros F u v [<-|[<-|[]]] [<-|[<-|[]]]; try reflexivity; [symmetry; exact F|exact F]. }
  destruct b.
  - split; [discriminate|]. intros F. apply Forall_inv in F. exfalso. apply F, X. reflexivity.
  - rewrite (IH Cl). split.
    + intros F. constructor; [|exact F]. intros F1. apply X in F1. discriminate.
    + intros F. apply Forall_inv_tail in F. exact F.
Qed.

Lemma neq_outer_ok args : Forall canonical args -> forall n, (n <= length args)%nat ->
  (neq_outer n args = true <->
   forall i j x y, (i < j < n)%nat -> nth_error args i = Some x -> nth_error args j = Some y -> ~ (value x == value y)%Q).
Proof.
  intros C. induction n as [|k IH]; intros L.
  - split; [intros _ i j x y H; lia|reflexivity].
  - cbn [neq_outer]. destruct (nth_error args k) as [x|] eqn:E; [|apply nth_error_None in E; lia].
    assert (Cx : canonical x) by (rewrite Forall_forall in C; apply C; apply nth_error_In with k; exact E).
    assert (Ck : Forall canonical (firstn k args)).
    { rewrite Forall_forall in *. intros y Hy. apply C. rewrite <- (firstn_skipn k args). apply in_or_app. left. exact Hy. }
    pose proof (neq_inner_ok x Cx (firstn k args) Ck) as N.
    assert (M : Forall (fun a => ~ (value a == value x)%Q) (firstn k args) <->
                forall i y, (i < k)%nat -> nth_error args i = Some y -> ~ (value y == value x)%Q).
    { rewrite Forall_forall. split.
      - intros F i y Hi Ey. apply F. apply nth_error_In with i. rewrite <- (firstn_skipn k args) in Ey.
        rewrite nth_error_app1 in Ey; [exact Ey|]. rewrite firstn_length. lia.
      - intros F y Hy. apply In_nth_error in Hy. destruct Hy as [i Hi].
        assert (B : (i < k)%nat).
        { assert (i < length (firstn k args))%nat by (apply nth_error_Some; congruence). rewrite firstn_length in *. lia. }
        apply (F i y B). rewrite <- (firstn_skipn k args). rewrite nth_error_app1; [exact Hi|]. rewrite firstn_length. lia. }
    destruct (neq_inner x (firstn k args)).
    + rewrite (IH ltac:(lia)). split.
      * intros F i j u v H Eu Ev. destruct (Nat.eq_dec j k) as [->|Nj].
        -- rewrite E in Ev. injection Ev as <-. apply (proj1 M (proj1 N eq_refl) i u); [lia|exact Eu].
        -- apply (F i j u v); [lia|exact Eu|exact Ev].
      * intros F i j u v H. apply F. lia.
    + split; [discriminate|]. intros F. apply N. apply M. intros i y Hi Ey. apply (F i k y x); [lia|exact Ey|exact E].
Qed.

Theorem NUMNEQUAL_ok args : (2 <= length args)%nat -> Forall canonical args ->
  exists b, NUMNEQUAL args = Val b /\
    (b = true <-> forall i j x y, (i < j)%nat -> nth_error args i = Some x -> nth_error args j = Some y -> ~ (value x == value y)%Q).
Proof.
  intros L C. exists (neq_outer (length args) args). split.
  - destruct args as [|a [|b r]]; [cbn in L; lia|cbn in L; lia|reflexivity].
  - rewrite (neq_outer_ok args C (length args) (le_n _)). split; intros F i j x y H Ex Ey.
    + apply (F i j x y); [|exact Ex|exact Ey]. assert (j < length args)%nat by (apply nth_error_Some; congruence). lia.
    + apply (F i j x y); [lia|exact Ex|exact Ey].
Qed.

(** * Printing and reading *)

Lemma printint_loop_length base down : forall fuel num acc w,
  printint_loop fuel base down num acc = Some w -> (length w <= fuel + length acc)%nat.
Proof.
  induction fuel as [|f IH]; intros num acc w; [discriminate|]. cbn [printint_loop]. cbv zeta.
  destruct (num / base =? 0).
  - intros E. injection E as <-. cbn [length]. lia.
  - intros E. apply IH in E. cbn [length] in E. lia.
Qed.

Lemma printint_small base down n : 2 <= base <= 36 -> Z.abs n < 2 ^ 31 ->
  exists dl, printint base down n = Some ((if n <? 0 then [45] else []) ++ map (digit_char base down) dl) /\
    Forall (fun d => 0 <= d < base) dl /\ eval base dl = Z.abs n /\ dl <> [] /\ (length dl <= 65)%nat.
Proof.
  intros Hb Hn. unfold printint.
  assert (U : (if n <? 0 then wrap64 (- n) else n) mod 2 ^ 64 = Z.abs n).
  { destruct (Z.ltb_spec n 0); [rewrite wrap64_small by lia|]; rewrite Z.mod_small; lia. }
  cbv zeta. rewrite U.
  assert (P : 2 ^ 31 < base ^ Z.of_nat 65).
  { apply Z.lt_le_trans with (2 ^ Z.of_nat 65); [reflexivity|]. apply Z.pow_le_mono_l. lia. }
  destruct (printint_loop_spec base down (proj1 Hb) 65 (Z.abs n) []) as (dl & E & F & V & N); [lia|lia|].
  rewrite E. rewrite app_nil_r in E. exists dl. rewrite app_nil_r. split; [reflexivity|]. split; [assumption|]. split; [assumption|].
  split; [assumption|]. apply printint_loop_length in E. rewrite map_length in E. cbn [length] in E. lia.
Qed.

Lemma digits_len_app base dl r c : 2 <= base <= 36 -> Forall (fun d => 0 <= d < base) dl -> is_digit base c = false ->
  digits_len base (map (digit_char base false) dl ++ c :: r) = length dl.
Proof.
  intros Hb F C. induction F as [|d dl Hd _ IH]; cbn [map app digits_len length]; [rewrite C; reflexivity|].
  destruct (digit_char_up base false d Hb Hd) as (_ & -> & _). rewrite IH. reflexivity.
Qed.

Lemma digits_len_all base dl : 2 <= base <= 36 -> Forall (fun d => 0 <= d < base) dl ->
  digits_len base (map (digit_char base false) dl) = length dl.
Proof.
  intros Hb F. induction F as [|d dl Hd _ IH]; cbn [map digits_len length]; [reflexivity|].
  destruct (digit_char_up base false d Hb Hd) as (_ & -> & _). rewrite IH. reflexivity.
Qed.

Lemma strtol_digits_app base dl r c : 2 <= base <= 36 -> Forall (fun d => 0 <= d < base) dl -> char_digit c = None -> forall v,
  strtol_digits base v (map (digit_char base false) dl ++ c :: r) = fold_left (fun v d => v * base + d) dl v.
Proof.
  intros Hb F C. induction F as [|d dl Hd _ IH]; intros v; cbn [map app strtol_digits fold_left]; [rewrite C; reflexivity|].
  destruct (digit_char_up base false d Hb Hd) as (_ & _ & -> & _).
  destruct (Z.ltb_spec d base); [|lia]. apply IH.
Qed.

Lemma strtol_head base dl s : 2 <= base <= 36 -> Forall (fun d => 0 <= d < base) dl -> dl <> [] ->
  strtol base (map (digit_char base false) dl ++ s) = strtol_digits base 0 (map (digit_char base false) dl ++ s).
Proof.
  intros Hb F N. destruct dl as [|d dl]; [contradiction|]. inversion F as [|? ? Hd _]; subst.
  destruct (digit_char_up base false d Hb Hd) as (_ & _ & _ & A & B). cbn [map app strtol].
  destruct (Z.eqb_spec (digit_char base false d) 43); [contradiction|].
  destruct (Z.eqb_spec (digit_char base false d) 45); [contradiction|]. reflexivity.
Qed.

Lemma is_digit_slash base : is_digit base 47 = false.
Proof. reflexivity. Qed.

Theorem print_read_ratio base down n d : 2 <= base <= 36 -> canonical (Rat n d) ->
  exists txt, printratio base down n d = Some txt /\ read_ratio_token base txt = Some (Val (Rat n d)).
Proof.
  intros Hb (C1 & C2 & C3).
  destruct (printint_small base down n Hb C1) as (dn & E1 & F1 & V1 & N1 & L1).
  destruct (printint_small base down d Hb ltac:(lia)) as (dd & E2 & F2 & V2 & N2 & L2).
  destruct (Z.ltb_spec d 0) as [?|_]; [lia|]. cbn [app] in E2.
  unfold printratio. rewrite E1, E2. eexists. split; [reflexivity|].
  set (sg := if n <? 0 then [45] else []) in *.
  set (A := map (digit_char base false) dn). set (B := map (digit_char base false) dd).
  assert (T : map to_upper ((sg ++ map (digit_char base down) dn) ++ [47] ++ map (digit_char base down) dd) = sg ++ A ++ 47 :: B).
  { rewrite map_app, map_app. rewrite (proj1 (map_upper base down dn Hb F1)). cbn [app map].
    rewrite (proj1 (map_upper base down dd Hb F2)). rewrite <- app_assoc. f_equal. unfold sg. destruct (n <? 0); reflexivity. }
  assert (Ls : (length sg <= 1)%nat) by (unfold sg; destruct (n <? 0); cbn; lia).
  assert (LA : length A = length dn) by apply map_length. assert (LB : length B = length dd) by apply map_length.
  unfold read_ratio_token.
  match goal with |- context [(MAXTOKENLENGTH <=? length ?t)%nat] => assert (LT : (MAXTOKENLENGTH <=? length t)%nat = false) end.
  { apply Nat.leb_gt. rewrite !app_length, !map_length. unfold MAXTOKENLENGTH. cbn [length]. lia. }
  rewrite LT. cbv zeta. rewrite T.
  assert (J : (match sg ++ A ++ 47 :: B with c :: _ => if (c =? 43) || (c =? 45) then 1%nat else 0%nat | [] => 0%nat end) = length sg).
  { unfold sg. destruct (n <? 0); [reflexivity|]. cbn [app length]. unfold A. destruct dn as [|x dn]; [contradiction|].
    inversion F1 as [|? ? Hx _]; subst. destruct (digit_char_up base false x Hb Hx) as (_ & _ & _ & X & Y). cbn [map app].
    destruct (Z.eqb_spec (digit_char base false x) 43); [contradiction|].
    destruct (Z.eqb_spec (digit_char base false x) 45); [contradiction|]. reflexivity. }
  rewrite J. replace (skipn (length sg) (sg ++ A ++ 47 :: B)) with (A ++ 47 :: B)
    by (rewrite skipn_app, skipn_all, Nat.sub_diag; reflexivity).
  assert (DL : digits_len base (A ++ 47 :: B) = length dn) by (apply digits_len_app; assumption || apply is_digit_slash).
  rewrite DL.
  destruct (Nat.eqb_spec (length dn) 0) as [Z0|_]; [destruct dn; [contradiction|discriminate]|].
  assert (NE : nth_error (sg ++ A ++ 47 :: B) (length sg + length dn) = Some 47).
  { rewrite nth_error_app2 by lia. rewrite nth_error_app2 by lia.
    replace (length sg + length dn - length sg - length A)%nat with 0%nat by lia. reflexivity. }
  rewrite NE. change (negb (47 =? 47)) with false. cbv iota.
  assert (SK : skipn (S (length sg + length dn)) (sg ++ A ++ 47 :: B) = B).
  { replace (sg ++ A ++ 47 :: B) with ((sg ++ A ++ [47]) ++ B) by (rewrite <- !app_assoc; reflexivity).
    rewrite skipn_app. replace (S (length sg + length dn)) with (length (sg ++ A ++ [47])) by (rewrite !app_length; cbn [length]; lia).
    rewrite skipn_all, Nat.sub_diag. reflexivity. }
  rewrite SK. assert (LL : length (sg ++ A ++ 47 :: B) = (S (length sg + length dn) + length dd)%nat)
    by (rewrite !app_length; cbn [length]; lia).
  rewrite LL. assert (DB : digits_len base B = length dd) by (apply digits_len_all; assumption). rewrite DB.
  destruct (Nat.eqb_spec (S (length sg + length dn)) (S (length sg + length dn) + length dd)) as [X|_].
  { destruct dd; [contradiction|cbn [length] in X; lia]. }
  rewrite Nat.eqb_refl. f_equal. unfold readratio. rewrite SK.
  assert (SN : strtol base (sg ++ A ++ 47 :: B) = n).
  { unfold sg. destruct (Z.ltb_spec n 0).
    - cbn [app strtol Z.eqb Pos.eqb]. unfold A. rewrite strtol_digits_app by (assumption || reflexivity).
      fold (eval base dn). rewrite V1. lia.
    - cbn [app]. unfold A. rewrite strtol_head by assumption. rewrite strtol_digits_app by (assumption || reflexivity).
      fold (eval base dn). rewrite V1. lia. }
  assert (SD : strtol base B = d).
  { unfold B. rewrite <- (app_nil_r (map _ dd)). rewrite strtol_head by assumption. rewrite app_nil_r.
    rewrite strtol_digits_spec by assumption. fold (eval base dd). rewrite V2. lia. }
  rewrite SN, SD. cbv zeta. rewrite !wrap32_id by lia. rewrite gcd_ok by lia. rewrite C3. cbn [bind].
  change (1 =? 0) with false. cbv iota. rewrite !quot_ok by lia. cbn [bind]. rewrite !Z.quot_1_r, !wrap32_id by lia.
  destruct (Z.eqb_spec d 1); [lia|]. unfold makeratio. rewrite !wrap32_id by lia. reflexivity.
Qed.
