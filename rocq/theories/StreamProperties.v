(** C43-C45: streams. *)
From Verif Require Import StreamModel StreamSpec StreamProofs.

(** ** C43 *)
(** Full statement (refuted below): whatever answers the operating system's write gives, the bytes delivered
    after a final flush are the bytes written.  Proved: this holds for every program and buffer size when
    write takes everything it is given; and for all answers whatsoever nothing is delivered twice,
    invented or reordered: what is delivered or buffered is a subsequence of what was written. *)
Theorem C43_delivered_partial size ops os : 0 < size -> Forall (fun a => a = WAll) os ->
  exists s1 os1, orun (file_output size) os (ops ++ [OFlush]) = ODone true s1 os1 /\ sent s1 = written ops.
Proof. exact (file_output_complete size ops os). Qed.
Print Assumptions C43_delivered_partial.

Theorem C43_order_partial size ops os : 0 < size ->
  exists ok s1 os1, orun (file_output size) os ops = ODone ok s1 os1 /\ sub (sent s1 ++ buf s1) (written ops).
Proof. exact (file_output_order size ops os). Qed.
Print Assumptions C43_order_partial.

(** A write that takes only part of the buffer loses the rest: flushstream sets count to 0. *)
Theorem C43_short_write_refuted : exists ops os s1,
  orun (file_output 8) os (ops ++ [OFlush]) = ODone true s1 [] /\ written ops = [97; 98; 99; 100] /\ sent s1 = [97].
Proof. exists [OStr [97; 98; 99; 100]], [WShort 1]. eexists. repeat split. Qed.
Print Assumptions C43_short_write_refuted.

(** A failing write while a character is written drops the character without any error, though a later flush
    succeeds. *)
Theorem C43_failed_write_refuted : exists ops os s1,
  orun (file_output 2) os (ops ++ [OFlush]) = ODone true s1 [] /\ written ops = [97; 98; 99] /\ sent s1 = [97; 98].
Proof. exists [OCh 97; OCh 98; OCh 99], [WFail; WAll]. eexists. repeat split. Qed.
Print Assumptions C43_failed_write_refuted.

(** A stream with an empty buffer: write-char stores outside it and a string write never ends. *)
Theorem C43_empty_buffer_refuted : orun (file_output 0) [] [OCh 97] = OUndef /\ orun (file_output 0) [] [OStr [97]] = OLoop.
Proof. split; reflexivity. Qed.
Print Assumptions C43_empty_buffer_refuted.

Example C43_ex : orun (file_output 3) [WAll; WAll; WAll] [OStr [97; 98; 99; 100]; OCh 101; OFlush; OCh 102; OStr []; OFlush]
  = ODone true {| knd := File; cap := 3; buf := []; sent := [97; 98; 99; 100; 101; 102] |} [].
Proof. reflexivity. Qed.
Example C43_order_ex : exists s1, orun (file_output 3) [WShort 2; WFail; WAll] [OStr [97; 98; 99; 100]; OFlush; OCh 101; OFlush]
  = ODone true s1 [] /\ sent s1 = [97; 98; 100; 101].
Proof. eexists. split; reflexivity. Qed.

(** ** C44 *)
(** Every program of read-char, unread-char (of the character just read), peek-char and read-line on every
    stream sees the events the operating system delivers, in order, whatever the block sizes. *)
Theorem C44_input ops s : good_input s -> irun s None ops = ispec (pending s) None ops.
Proof. intros G. apply irun_ispec; [exact G|discriminate]. Qed.
Print Assumptions C44_input.

(** In particular reading a file character by character gives its contents, then end of file, for all ways of
    cutting the file into blocks. *)
Theorem C44_contents (size : nat) (blocks : list (list Z)) :
  Forall (fun b => b <> [] /\ (length b <= size)%nat) blocks ->
  irun {| chars := repeat 0 size; icount := 0; itail := 0; src := blocks |} None
       (repeat IRead (length (concat blocks)) ++ [IRead])
  = map (fun c => RCh (Some c)) (concat blocks) ++ [RCh None].
Proof.
  intros F. rewrite C44_input.
  2:{ split; cbn [icount itail chars src]; [lia|]. rewrite repeat_length. eapply Forall_impl; [|exact F]. cbn beta. intros a [_ L]; exact L. }
  assert (P : pending {| chars := repeat 0 size; icount := 0; itail := 0; src := blocks |} = map Some (concat blocks)).
  { unfold pending. cbn [icount itail chars src]. rewrite Nat.sub_diag. cbn [firstn map app].
    induction F as [|b bs [N _] _ IH]; [reflexivity|].
    change (events_of (b :: bs)) with ((match b with [] => [None] | _ => map Some b end) ++ events_of bs).
    cbn [concat]. rewrite map_app, IH. destruct b; [contradiction|reflexivity]. }
  rewrite P. clear P F.
  assert (X : forall (l : list Z) la, ispec (map Some l) la (repeat IRead (length l) ++ [IRead]) = map (fun c => RCh (Some c)) l ++ [RCh None]).
  { induction l as [|x l IH]; intros la; [reflexivity|]. cbn [length repeat app map ispec]. f_equal. apply IH. }
  apply X.
Qed.
Print Assumptions C44_contents.

Example C44_ex : irun {| chars := repeat 0 4; icount := 0; itail := 0; src := [[97; 98]; [99]; [13; 10; 120]; []; [121]] |} None
   [IRead; IRead; IUnread; IPeek; ILine; ILine; IRead; IRead]
 = [RCh (Some 97); RCh (Some 98); RUnit; RCh (Some 98); RLine (Some [98; 99]); RLine (Some [120]); RCh (Some 121); RCh None].
Proof. reflexivity. Qed.
Example C44_hyp : good_input {| chars := repeat 0 4; icount := 0; itail := 0; src := [[97; 98]; [99]; [13; 10; 120]; []; [121]] |}.
Proof. split; cbn; [lia|]. repeat (apply Forall_cons; [cbn; lia|]). apply Forall_nil. Qed.

(** ** C45 *)
(** Full statement (refuted for an initial size of 0): the string is the concatenation of what was written.
    Proved for every positive initial size up to a million bytes, and beyond that the only other outcome is
    the error that the string is too long. *)
Theorem C45_accumulates_partial size ops os : 0 < size -> Z.of_nat (length (written ops)) < 1000000 ->
  exists s1, orun (string_output size) os ops = ODone true s1 os /\ get_output_stream_string s1 = written ops.
Proof. exact (string_output_complete size ops os). Qed.
Print Assumptions C45_accumulates_partial.

Theorem C45_or_error_partial size ops os : 0 < size ->
  (exists s1, orun (string_output size) os ops = ODone true s1 os /\ get_output_stream_string s1 = written ops) \/
  orun (string_output size) os ops = OLong.
Proof. exact (string_output_or_error size ops os). Qed.
Print Assumptions C45_or_error_partial.

Theorem C45_empty_refuted : orun (string_output 0) [] [OCh 97] = OUndef /\ orun (string_output 0) [] [OStr [97]] = OLoop.
Proof. split; reflexivity. Qed.
Print Assumptions C45_empty_refuted.

Example C45_ex : exists s1, orun (string_output 2) [] [OStr [97; 98; 99]; OCh 100; OFlush; OStr [101; 102]] = ODone true s1 [] /\
  get_output_stream_string s1 = [97; 98; 99; 100; 101; 102].
Proof. eexists. split; reflexivity. Qed.
