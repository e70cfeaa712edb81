(** C101: the line editor edits the text at the cursor and shows it; the history gives back the commands. *)
From Coq Require Import ZArith List Bool Arith Lia.
From Verif Require Import HistModel HistSpec HistProofs.
Import ListNotations.
Open Scope nat_scope.

(** After any keys the line is what the keys mean, and the row of the screen and the cursor show it; return gives the line, ^C nil. *)
Theorem C101_edit_partial : forall l keys b a, edits keys (l, []) (b, a) ->
  (exists e, line_edit l keys = Waiting e /\ line e = b ++ a /\ index e = length b /\ row (scr e) = b ++ a /\ cur (scr e) = length b) /\
  (forall k rest, k = 10 \/ k = 13 -> b ++ a <> [] -> line_edit l (keys ++ k :: rest) = Returned (Some (b ++ a))) /\
  (forall rest, line_edit l (keys ++ 3 :: rest) = Returned None).
Proof.
  intros l keys b a H. assert (E : line_edit l keys = Waiting (at_ b a)).
  { unfold line_edit, cursor_pos. cbn [row]. pose proof (edits_keys _ _ _ H) as K. unfold at_ at 1 in K. cbn [fst snd] in K. rewrite app_nil_r in K. exact K. }
  split; [exists (at_ b a); split; [exact E|]; auto|]. split.
  - intros k rest K N. unfold line_edit in *. rewrite (keys_app _ _ _ _ E). cbn [keys_loop].
    destruct K as [-> | ->]; cbn [Nat.ltb Nat.leb dispatch at_ line]; (destruct (b ++ a) as [|x r] eqn:Eb; [congruence | reflexivity]).
  - intros rest. unfold line_edit in *. rewrite (keys_app _ _ _ _ E). reflexivity.
Qed.
(** All keys but ^C, return and refreshing have a meaning, wherever the cursor is. *)
Theorem C101_keys : forall keys, (forall k, In k keys -> k < 128 /\ ~ In k [3; 7; 10; 13; 18]) -> forall p, exists q, edits keys p q.
Proof.
  induction keys as [|k keys IH]; intros H [b a]; [eexists; constructor|].
  destruct (H k (or_introl eq_refl)) as [L N]. destruct (key_total k L N) as [c K]. destruct (does_total c b a) as [p' D].
  destruct (IH (fun k' M => H k' (or_intror M)) p') as [q E]. exists q. econstructor; eassumption.
Qed.

(** A history for [n] commands, begun at the number [q]: of the commands since, each one still kept is found under its number and by counting back from the
    last; a pattern finds the latest command before the last one that contains it. *)
Theorem C101_history_partial : forall n q hs, 2 <= n -> (0 <= q)%Z -> exists s0, new_history n q = Val s0 /\
  let s := fold_left (fun s h => add_history h s) hs s0 in let k := length hs in
  hseq s = (q + Z.of_nat k)%Z /\
  (forall j c, nth_error hs j = Some c -> k <= j + n -> get_history s (q + Z.of_nat j + 1) = Val (Some c)) /\
  (forall j m c, nth_error hs j = Some c -> k <= j + n -> j + m + 2 = k -> get_history s (- Z.of_nat m) = Val (Some c)) /\
  (forall pat c, get_history_pattern s pat = Some c -> exists j, nth_error hs j = Some c /\ S j < k < j + n /\ contains pat c /\
     forall j' c', j < j' -> S j' < k -> nth_error hs j' = Some c' -> ~ contains pat c') /\
  (forall pat, get_history_pattern s pat = None -> forall j c, nth_error hs j = Some c -> S j < k < j + n -> ~ contains pat c).
Proof.
  intros n q hs Ln Lq. destruct (hinv_all n q hs) as (s0 & E0 & V); [lia|]. exists s0. split; [exact E0|]. cbv zeta.
  set (s := fold_left (fun s h => add_history h s) hs s0) in *. clearbody s.
  destruct (hinv_nth n q hs s) as (lost & L1 & L2 & L3 & N); [lia | exact V|].
  split; [destruct V as (? & ? & _ & _ & _ & _ & Q & _); exact Q|].
  assert (Idx : forall j c, nth_error hs j = Some c -> length hs <= j + n -> exists i, S j = lost + i /\ i <= hindex s).
  { intros j c E K. assert (j < length hs) by (apply nth_error_Some; congruence). exists (S j - lost). destruct lost; lia. }
  split; [|split; [|]].
  - intros j c E K. destruct (Idx j c E K) as (i & J & Li). assert (Lj : j < length hs) by (apply nth_error_Some; congruence).
    unfold get_history. destruct (Z.leb_spec (q + Z.of_nat j + 1) 0); [lia|].
    assert (L0 : lost < length hs) by (destruct lost; [lia | specialize (L3 ltac:(lia)); lia]).
    destruct (nth_error hs lost) as [c1|] eqn:E1; [|apply nth_error_None in E1; lia].
    unfold elt at 1. change (1 <? 0)%Z with false. change (Z.to_nat 1) with 1. cbv iota. rewrite (N 1 lost c1 E1) by lia.
    assert (Z.min (Z.of_nat (hindex s)) (Z.max 0 (q + Z.of_nat j + 1 - (q + Z.of_nat lost + 1) - -1)) = Z.of_nat i) as -> by lia.
    unfold elt. destruct (Z.ltb_spec (Z.of_nat i) 0); [lia|]. rewrite Nat2Z.id, (N i j c E J). reflexivity.
  - intros j m c E K M. destruct (Idx j c E K) as (i & J & Li). unfold get_history. destruct (Z.leb_spec (- Z.of_nat m) 0); [|lia].
    assert ((Z.of_nat (hindex s) + - Z.of_nat m - 1)%Z = Z.of_nat i) as -> by lia.
    unfold elt. destruct (Z.ltb_spec (Z.of_nat i) 0); [lia|]. rewrite Nat2Z.id, (N i j c E J). reflexivity.
  - assert (B : forall i, 1 <= i <= hindex s - 1 -> exists j h, S j = lost + i /\ nth_error hs j = Some h /\ nth_error (arr s) i = Some (Some ((q + Z.of_nat j + 1)%Z, Some h))).
    { intros i Hi. destruct (nth_error hs (lost + i - 1)) as [h|] eqn:E; [|apply nth_error_None in E; lia].
      exists (lost + i - 1), h. split; [lia|]. split; [exact E|]. apply N; [exact E | lia]. }
    split.
    + intros pat c G. unfold get_history_pattern in G.
      pose proof (search_spec (arr s) pat (hindex s - 1)) as S1. rewrite G in S1.
      destruct S1 as (i & q1 & Hi & Ei & C & Later); [intros i Hi; destruct (B i Hi) as (j & h & _ & _ & ->); eauto|].
      destruct (B i Hi) as (j & h & J & Ej & Ea). rewrite Ea in Ei. injection Ei as _ ->. exists j. split; [exact Ej|].
      split; [destruct lost; [lia | specialize (L3 ltac:(lia)); lia]|]. split; [exact C|].
      intros j' c' Lt Sj Ej'. apply (Later (S j' - lost) (q + Z.of_nat j' + 1)%Z); [lia|]. apply N; [exact Ej' | lia].
    + intros pat G. unfold get_history_pattern in G. pose proof (search_spec (arr s) pat (hindex s - 1)) as S1. rewrite G in S1.
      intros j c E K. apply (S1 ltac:(intros i Hi; destruct (B i Hi) as (j0 & h & _ & _ & ->); eauto) (S j - lost) (q + Z.of_nat j + 1)%Z).
      * destruct lost; [lia | specialize (L3 ltac:(lia)); lia].
      * apply N; [exact E|]. destruct lost; [lia | specialize (L3 ltac:(lia)); lia].
Qed.

(** Refreshing (^R) leaves the cursor where it was but goes on at the end of the line.  An empty line is nil, as if the editing had been given up.  A byte above 127
    is an error.  In a history of 2 or 3 entries: a command no longer kept is silently another one; the oldest command kept is not found by a pattern; before the
    first command every number is an error. *)
Definition after (n : nat) (hs : list (list nat)) : res history :=
  match new_history n 0 with Val s => Val (fold_left (fun s h => add_history h s) hs s) | Err => Err end.
Theorem C101_refuted :
  (exists e, line_edit [97; 98] [2; 18; 99] = Waiting e /\ line e = [97; 98; 99]) /\
  (exists e, line_edit [97; 98] [2; 18] = Waiting e /\ index e = 2 /\ cur (scr e) = 1) /\
  line_edit [97] [127; 13] = Returned None /\ line_edit [97] [195] = Failed /\
  (exists s, after 2 [[97]; [98]; [99]] = Val s /\ get_history s 1 = Val (Some [98])) /\
  (exists s, after 3 [[97]; [98]; [99]] = Val s /\ get_history s 1 = Val (Some [97]) /\ get_history_pattern s [97] = None) /\
  (exists s, after 3 [] = Val s /\ get_history s 1 = Err).
Proof.
  split; [eexists; split; reflexivity|]. split; [eexists; split; [reflexivity|]; split; reflexivity|]. split; [reflexivity|]. split; [reflexivity|].
  split; [eexists; split; reflexivity|]. split; [eexists; split; [reflexivity|]; split; reflexivity|]. eexists; split; reflexivity.
Qed.

Example C101_example :
  edits [1; 40; 12; 2; 127; 88; 6; 4; 41] ([97; 98; 99], []) ([40; 97; 88; 99; 41], []) /\
  line_edit [97; 98; 99] [1; 40; 12; 2; 127; 88; 6; 4; 41; 13] = Returned (Some [40; 97; 88; 99; 41]) /\
  exists s, after 3 [[97; 98]; [65; 99]; [100]; [98; 97]] = Val s /\ get_history s 3 = Val (Some [100]) /\ get_history s (-1) = Val (Some [65; 99]) /\
    get_history s 0 = Val (Some [100]) /\ get_history_pattern s [68] = Some [100].
Proof.
  split.
  - eapply (ECons _ Head _ _ ([], [97; 98; 99])); [unfold key; tauto | apply (DHead [97; 98; 99] [])|].
    eapply (ECons _ (Insert 40) _ _ ([40], [97; 98; 99])); [assert (32 <= 40 < 127) by lia; unfold key; tauto | apply (DInsert [])|].
    eapply (ECons _ Tail _ _ ([40; 97; 98; 99], [])); [unfold key; tauto | apply (DTail [40])|].
    eapply (ECons _ Left _ _ ([40; 97; 98], [99])); [unfold key; tauto | apply (DLeft [40; 97; 98])|].
    eapply (ECons _ DelPrev _ _ ([40; 97], [99])); [unfold key; tauto | apply (DDelPrev [40; 97])|].
    eapply (ECons _ (Insert 88) _ _ ([40; 97; 88], [99])); [assert (32 <= 88 < 127) by lia; unfold key; tauto | apply (DInsert [40; 97])|].
    eapply (ECons _ Right _ _ ([40; 97; 88; 99], [])); [unfold key; tauto | apply (DRight [40; 97; 88])|].
    eapply (ECons _ DelNext _ _ ([40; 97; 88; 99], [])); [unfold key; tauto | apply DDelNext0|].
    eapply (ECons _ (Insert 41) _ _ ([40; 97; 88; 99; 41], [])); [assert (32 <= 41 < 127) by lia; unfold key; tauto | apply (DInsert [40; 97; 88; 99])|]. constructor.
  - split; [reflexivity|]. eexists. split; [reflexivity|]. repeat (split; [reflexivity|]). reflexivity.
Qed.

Print Assumptions C101_edit_partial.
Print Assumptions C101_keys.
Print Assumptions C101_history_partial.
Print Assumptions C101_refuted.
