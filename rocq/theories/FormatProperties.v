(** C97: format writes its control string with every directive replaced by the text of its arguments. *)
From Coq Require Import Lia.
From Verif Require Import Word BigModel BigSpec BitsModel IntTextModel FormatModel FormatSpec FormatProofs.
Open Scope Z_scope.

(** Every control string consists of pieces, and of a directive that is cut off or has too many or too large parameters, if there is one. *)
Theorem C97_pieces : forall s, exists l tail, s = texts l ++ tail /\ Forall well l /\
  (tail = [] \/ beginning tail \/ beginning_v tail \/ oversized tail).
Proof. exact every_control. Qed.
Print Assumptions C97_pieces.
(** "a~5,2,vdb~10" is a, a directive, b and a directive that is cut off *)
Example C97_pieces_ex : let d := Dir [[53]; [50]] true (Some 118) 100 in
  [97; 126; 53; 44; 50; 44; 118; 100; 98; 126; 49; 48] = texts [Lit 97; d; Lit 98] ++ [126; 49; 48] /\ Forall well [Lit 97; d; Lit 98] /\ beginning [126; 49; 48].
Proof.
  cbv zeta. split; [reflexivity|]. split.
  - repeat constructor; cbn [well]; try discriminate; unfold is_digit; cbn [decimal length]; lia.
  - exists [[49; 48]], false. split; [reflexivity|]. split; [discriminate|]. split; [cbn [length]; lia|].
    repeat constructor; try discriminate; unfold is_digit; cbn [decimal]; lia.
Qed.

(** The text is that of the pieces, one after the other, each with the arguments that the pieces before it have left.  What is missing:
    objects that call format to print themselves, numbers of newlines, and negative bignums with leading zeros, for which it is false. *)
Theorem C97_format_partial : forall down l args out rest, renders down l args out rest -> Forall well l ->
  XFORMAT down (texts l) args = Done out.
Proof. exact format_ok. Qed.
Print Assumptions C97_format_partial.
(** (format nil "~5a=~6,4d~%" 'ab -17) is "ab   = -017" and a newline *)
Definition ab : arg := Arg [Put [97; 98]] [Put [97; 98]] None None None.
Definition m17 : arg := Arg [Put [45; 49; 55]] [Put [45; 49; 55]] (Some (makeint (-17))) None None.
Example C97_format_ex :
  let l := [Dir [[53]] false None 97; Lit 61; Dir [[54]; [52]] false None 100; Dir [] false None 37] in
  let out := [97; 98; 32; 32; 32; 61; 32; 32; 45; 48; 49; 55; 10] in
  Forall well l /\ renders true l [ab; m17] out [] /\ XFORMAT true (texts l) [ab; m17] = Done out.
Proof.
  cbv zeta. split; [repeat constructor; cbn [well]; try discriminate; unfold is_digit, is_v; cbn [decimal length]; lia|].
  split; [|vm_compute; reflexivity].
  apply (r_dir true [[53]] false 97 _ [ab; m17] [97; 98; 32; 32; 32] [m17]).
  { apply m_a with (t := [97; 98]); [|reflexivity]. apply (plain_put [97; 98] [] []). constructor. }
  apply r_lit. apply (r_dir true [[54]; [52]] false 100 _ [m17] [32; 32; 45; 48; 49; 55] []).
  { apply m_int with (base := 10) (o := makeint (-17)) (t := [49; 55]); [left; split; reflexivity | reflexivity | vm_compute; repeat split; congruence | vm_compute; reflexivity | exact Logic.I | vm_compute; reflexivity]. }
  apply (r_dir true [] false 37 [] [] [10] [] [] []); [apply m_newline; [left; reflexivity | reflexivity] | constructor].
Qed.

(** Directives that run out of arguments signal an error, after all that comes before has been written. *)
Theorem C97_missing : forall down l args out ps comma v letter s, renders down l args out [] -> Forall well l ->
  well (Dir ps comma v letter) -> takes letter \/ v <> None ->
  XFORMAT down (texts l ++ text (Dir ps comma v letter) ++ s) args = Fail MismatchArg out.
Proof.
  intros down l args out ps comma [x|] letter s H W W1 T; [apply format_missing_v; assumption|].
  destruct T as [T|T]; [apply format_missing; assumption | congruence].
Qed.
Print Assumptions C97_missing.
Example C97_missing_ex : XFORMAT true (texts [Lit 120] ++ text (Dir [] false None 100) ++ [121]) [] = Fail MismatchArg [120].
Proof. vm_compute. reflexivity. Qed.
(** So does a control string that ends within a directive. *)
Theorem C97_cut : forall down l args out rest s, renders down l args out rest -> Forall well l -> beginning s ->
  XFORMAT down (texts l ++ s) args = Fail FormatString out.
Proof. exact format_cut. Qed.
Print Assumptions C97_cut.
Example C97_cut_ex : XFORMAT true [120; 126; 49; 48] [ab] = Fail FormatString [120].
Proof. vm_compute. reflexivity. Qed.

(** what a field is: exactly as wide as asked for when the text fits, and nothing is cut *)
Theorem C97_width : forall w z sign digits t out1 out2,
  number_field w z sign digits out1 -> left_field w t out2 ->
  Z.of_nat (length out1) = Z.max w (Z.max z (Z.of_nat (length sign + length digits))) /\
  Z.of_nat (length out2) = Z.max w (Z.of_nat (length t)) /\ (exists u, out1 = u ++ digits) /\ exists u, out2 = t ++ u.
Proof.
  intros w z sign digits t out1 out2 H1 H2. unfold number_field, left_field in *. cbv zeta in H1. split; [|split; [|split]].
  - rewrite H1. repeat (rewrite !app_length || rewrite !repeat_length). lia.
  - rewrite H2, app_length, repeat_length. lia.
  - rewrite H1. eexists. rewrite !app_assoc. reflexivity.
  - rewrite H2. eexists. reflexivity.
Qed.
Print Assumptions C97_width.

(** Where it is false: ~2% writes three newlines; ~10a of an object that calls format to print itself is 15 characters wide; ~40,30d of
    -2^64 is 39 characters wide; and in ~,3f the parameter is written out and the number is not. *)
Definition self_printer : arg := Arg [Put [35; 60; 97; 98; 99]; Nested; Put [62]] [] None None None.
Definition m2_64 : arg := Arg [] [] (Some (Big [0; -2])) None None.
Theorem C97_refuted :
  XFORMAT true [126; 50; 37] [] = Done [10; 10; 10] /\
  (exists out, XFORMAT true [126; 49; 48; 97] [self_printer] = Done out /\ length out = 15%nat) /\
  (canonical (Big [0; -2]) /\ value (Big [0; -2]) = - 2 ^ 64 /\
   exists out, XFORMAT true [126; 52; 48; 44; 51; 48; 100] [m2_64] = Done out /\ length out = 39%nat) /\
  (forall a, XFORMAT true [126; 44; 51; 102] [a] = Done [51; 102]).
Proof.
  split; [vm_compute; reflexivity|]. split; [eexists; split; [vm_compute; reflexivity | reflexivity]|]. split.
  - split.
    { cbn [canonical wf]. unfold in_long, fixnum_range. cbn [bigval length]. split; [vm_compute; repeat split; congruence|]. split.
      - intros [H _]. vm_compute in H. apply H. reflexivity.
      - intros _ [H _]. vm_compute in H. apply H. reflexivity. }
    split; [reflexivity|]. eexists. split; [vm_compute; reflexivity | reflexivity].
  - intros a. reflexivity.
Qed.
Print Assumptions C97_refuted.
