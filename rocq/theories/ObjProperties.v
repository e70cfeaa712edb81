(** C100: messages reach the nearest method, send-super the next one, and slots keep their places in subclasses. *)
From Coq Require Import ZArith List Bool Arith Lia.
From Verif Require Import ObjModel ObjSpec ObjProofs.
Import ListNotations.
Open Scope nat_scope.

(** Every class has its superclasses in a line, without repetition, up to [object]; the search for a method ends, and finds the nearest one. *)
Theorem C100_lookup_partial : forall ops t, fresh ops -> run ops first_table = Some t -> forall c, c <= length (definitions ops) ->
  exists l, lineage ops c l /\ NoDup l /\ forall sel, findmethod t sel c = Some (hd_error (method_list ops l sel)).
Proof.
  intros ops t F R c L. pose proof (inv_run _ F _ R) as V. assert (Lc : c < length t) by (rewrite (length_table _ _ V); lia).
  destruct (lineage_exists _ _ V (S c) c) as (l & Hl & Nd & _); [lia | exact Lc|]. exists l. split; [exact Hl|]. split; [exact Nd|].
  intros sel. apply findmethod_spec; assumption.
Qed.

(** A message has exactly one answer, and SEND gives it. *)
Theorem C100_send_partial : forall ops t h, fresh ops -> run ops first_table = Some t -> sound ops h -> forall r sel args, sound_val h r ->
  answer ops h r sel args (SEND t h r sel args) /\ forall o, answer ops h r sel args o -> o = SEND t h r sel args.
Proof.
  intros ops t h F R Sh r sel args Sr. pose proof (inv_run _ F _ R) as V.
  destruct (answer_exists _ _ V h Sh r sel args Sr) as [o A]. split.
  - rewrite (send_answer _ _ V h Sh _ _ _ _ A). exact A.
  - intros o' A'. symmetry. exact (send_answer _ _ V h Sh _ _ _ _ A').
Qed.

(** Of all methods for a selector along the superclasses, each one's send-super calls the next, and the last one's finds none. *)
Theorem C100_super_partial : forall ops t, fresh ops -> run ops first_table = Some t ->
  forall c l sel pre d m rest r args, c <= length (definitions ops) -> lineage ops c l -> method_list ops l sel = pre ++ (d, m) :: rest ->
  match rest with
  | (d', m') :: _ => send_super t r d sel args = Run r d' m' args
  | [] => send_super t r d sel args = if d =? 0 then NoClass else NoMethod
  end.
Proof.
  intros ops t F R c l sel pre d m rest r args L Hl E. pose proof (inv_run _ F _ R) as V.
  assert (Lc : c < length t) by (rewrite (length_table _ _ V); lia). clear L.
  revert pre E. induction Hl as [|c s l Es Hl IH]; intros pre E; cbn [method_list flat_map] in E; fold (method_list ops) in E.
  - destruct (own_method ops 0 sel None) as [n|]; [|destruct pre; discriminate E].
    destruct pre as [|? [|? ?]]; try discriminate E. injection E as <- <- <-. cbn [Nat.eqb]. unfold send_super.
    destruct (class_of _ _ V 0 Lc) as (k & -> & K1 & _). rewrite K1. reflexivity.
  - change (flat_map (fun d => match own_method ops d sel None with Some m => [(d, m)] | None => [] end) l) with (method_list ops l sel) in E.
    pose proof (super_lt _ _ V _ _ Lc Es) as Lt. assert (Ls : s < length t) by lia.
    destruct pre as [|p pre].
    + destruct (own_method ops c sel None) as [n|] eqn:O.
      * injection E as <- <- <-. unfold send_super. destruct (class_of _ _ V c Lc) as (k & -> & K1 & _). rewrite K1, Es.
        unfold SENDMESSAGE. rewrite (findmethod_spec _ _ V sel s l Ls Hl).
        destruct (method_list ops l sel) as [|[d' m'] ms]; cbn [hd_error]; [|reflexivity]. destruct (Nat.eqb_spec c 0); [lia | reflexivity].
      * apply (IH Ls []). exact E.
    + destruct (own_method ops c sel None) as [n|] eqn:O; cbn [app] in E.
      * injection E as _ E. apply (IH Ls pre). exact E.
      * apply (IH Ls (p :: pre)). exact E.
Qed.

(** The slots of a class are those of its superclasses, [object]'s first, and its own; a slot of a class or a superclass of it is in one and the same place by
    name in the object (interpreted methods), in the compiled methods and the accessors of the superclass, and that is a cell of every instance. *)
Theorem C100_slots_partial : forall ops t, fresh ops -> run ops first_table = Some t ->
  forall c l, c <= length (definitions ops) -> lineage ops c l ->
  NoDup (map fst (all_slots ops l)) /\ klass (makeobject t c) = c /\ length (iv (makeobject t c)) = length (all_slots ops l) /\
  forall d pre post v, l = pre ++ d :: post -> In v (map fst (all_slots ops (d :: post))) ->
    exists i, nth_error (map fst (all_slots ops l)) i = Some v /\ i < length (iv (makeobject t c)) /\
      place_compiled t d v = Some i /\ getslotindex t d v = Some i /\
      forall h o, classof h o = Some c -> place_interpreted t h o v = Some i.
Proof.
  intros ops t F R c l L Hl. pose proof (inv_run _ F _ R) as V. assert (Lc : c < length t) by (rewrite (length_table _ _ V); lia).
  destruct (vars_spec _ _ V c l Hl Lc) as (E1 & _ & N & H). cbn [makeobject klass iv]. rewrite repeat_length. unfold place_compiled, getslotindex, place_interpreted.
  split; [rewrite <- E1; exact N|]. split; [reflexivity|]. split; [rewrite E1, map_length; reflexivity|].
  intros d pre post v El M. assert (Md : In d l) by (rewrite El; apply in_or_app; right; left; reflexivity).
  destruct (H d Md) as [Ld [more Em]].
  assert (Hd : lineage ops d (d :: post)).
  { destruct (lineage_exists _ _ V (S c) c) as (l0 & Hl0 & Nl & _); [lia | exact Lc|]. rewrite (lineage_fun ops _ _ _ Hl0 Hl) in Nl.
    destruct (lineage_in ops c l d Hl Md) as (pre' & post' & E' & Hd). assert (post' = post) as <-; [|exact Hd].
    rewrite El in E', Nl. clear - E' Nl. revert pre' E'. induction pre as [|x pre IH]; intros [|y pre'] E'; cbn in *.
    - injection E' as ->. reflexivity.
    - injection E' as <- ->. inversion Nl as [|? ? Nx _]. exfalso. apply Nx. apply in_or_app. right. left. reflexivity.
    - injection E' as -> E'. inversion Nl as [|? ? Nx _]. exfalso. apply Nx. apply in_or_app. right. left. reflexivity.
    - injection E' as <- E'. inversion Nl. eapply IH; eassumption. }
  destruct (vars_spec _ _ V d _ Hd Ld) as (Ed & _ & _ & _). rewrite <- Ed in M.
  destruct (position_nth v (vars_of t d) 0) as [[_ Ab] | (j & P & Nj)]; [contradiction|]. cbn [Nat.add] in P.
  assert (Nc : nth_error (vars_of t c) j = Some v) by (rewrite Em, nth_error_app1; [exact Nj | apply nth_error_Some; congruence]).
  exists j. rewrite <- E1. split; [exact Nc|]. split; [apply nth_error_Some; congruence|]. split; [exact P|]. split; [exact P|].
  intros h o ->. rewrite Em, position_app by exact M. exact P.
Qed.

(** SEND_IF_FOUND agrees with SEND where the class has a method, and gives the default where nothing is forwarded. *)
Theorem C100_send_if_found_partial : forall ops t h, fresh ops -> run ops first_table = Some t -> sound ops h -> forall default r sel args,
  (forall d m ms, responds ops h r sel ((d, m) :: ms) -> SEND_IF_FOUND t h default r sel args = inl (Run r d m args)) /\
  (forall c l, responds ops h r sel [] -> classof h r = Some c -> lineage ops c l -> (forall f, In f (map snd (all_slots ops l)) -> ~ wants sel f) ->
     SEND_IF_FOUND t h default r sel args = inr default).
Proof.
  intros ops t h F R Sh default r sel args. pose proof (inv_run _ F _ R) as V. unfold SEND_IF_FOUND. split.
  - intros d m ms Rs. destruct (responds_find _ _ V h Sh _ _ _ Rs) as (c & -> & ->). reflexivity.
  - intros c l Rs C Hl W. destruct (responds_find _ _ V h Sh _ _ _ Rs) as (c' & C' & Fd). assert (c' = c) by congruence. subst c'. rewrite C, Fd. cbn [hd_error].
    destruct (vars_spec _ _ V c l Hl (classof_lt _ _ V h Sh _ _ C)) as (_ & -> & _).
    assert (findforward t h sel (map snd (all_slots ops l)) (slots_of h r) = FNone) as ->; [|reflexivity].
    revert W. generalize (map snd (all_slots ops l)) (slots_of h r). induction l0 as [|f fs IH]; intros vs W; [reflexivity|].
    destruct vs as [|v vs]; [reflexivity|]. cbn [findforward]. destruct (accepts sel f) eqn:A.
    + apply accepts_wants in A. exfalso. apply (W f); [left; reflexivity | exact A].
    + apply IH. intros f' M. apply W. right. exact M.
Qed.

(** A: slot 10; B, of A: slot 11.  A is defined anew with the slots 10 and 12: in instances of B, A's slot 12 is now the place of B's slot 11, and B has no slot 12.
    A class defined anew below its own subclass makes the search endless.  A message sent with send-if-found that a component should get is stored through NULL.
    A global variable 13 of a method of A is taken for the slot of that name of the receiver's class when the method is interpreted, not when it is compiled. *)
Definition stale : list op := [NewClass 0 [(10, FSome [])]; NewClass 1 [(11, FSome [])]; Redefine 1 0 [(10, FSome []); (12, FSome [])]].
Definition loop : list op := [NewClass 0 []; NewClass 1 []; Redefine 1 2 []].
Definition part : list op := [NewClass 0 [(10, FSome [5])]; NewClass 0 []; AddMethod 2 5 77].
Definition capture : list op := [NewClass 0 [(10, FSome [])]; NewClass 1 [(13, FSome [])]].
Theorem C100_refuted :
  (exists t, run stale first_table = Some t /\ getslotindex t 1 12 = Some 1 /\ getslotindex t 2 11 = Some 1 /\ getslotindex t 2 12 = None /\ length (iv (makeobject t 2)) = 2) /\
  (exists t, run loop first_table = Some t /\ SEND t [Obj 1 []] (Ref 0) 5 [] = Forever) /\
  (exists t, run part first_table = Some t /\ let h := [Obj 1 [Ref 1]; Obj 2 []] in
     SEND t h (Ref 0) 5 [] = Run (Ref 1) 2 77 [] /\ SEND_IF_FOUND t h (Sym 0) (Ref 0) 5 [] = inl Crash) /\
  (exists t, run capture first_table = Some t /\ place_compiled t 1 13 = None /\ place_interpreted t [makeobject t 2] (Ref 0) 13 = Some 1).
Proof.
  split; [eexists; split; [reflexivity|]; auto|]. split; [eexists; split; [reflexivity|]; reflexivity|].
  split; [eexists; split; [reflexivity|]; split; reflexivity|]. eexists. split; [reflexivity|]. split; reflexivity.
Qed.

(** A (1): slot 10, method 5; B (2), of A: slot 11, forwarding 6; C (3), of B: slot 12, methods 5 and :nomethod; D (4): method 6. *)
Definition zoo : list op :=
  [NewClass 0 [(10, FSome [])]; AddMethod 1 5 100; NewClass 1 [(11, FSome [6])]; NewClass 2 [(12, FAll)]; AddMethod 3 5 101; AddMethod 3 5 102; NewClass 0 []; AddMethod 4 6 103;
   AddMethod 3 0 104].
Definition zoo_heap : heap := [Obj 3 [Num 1; Ref 1; Sym 0]; Obj 4 []; Obj 2 [Num 1; Num 2]].
Example C100_example :
  fresh zoo /\ sound zoo zoo_heap /\ lineage zoo 3 [3; 2; 1; 0] /\ method_list zoo [3; 2; 1; 0] 5 = [(3, 102); (1, 100)] /\
  exists t, run zoo first_table = Some t /\ SEND t zoo_heap (Ref 0) 5 [] = Run (Ref 0) 3 102 [] /\ send_super t (Ref 0) 3 5 [] = Run (Ref 0) 1 100 [] /\
    send_super t (Ref 0) 1 5 [] = NoMethod /\ SEND t zoo_heap (Ref 0) 6 [] = Run (Ref 1) 4 103 [] /\ SEND t zoo_heap (Ref 0) 7 [Num 9] = Run (Ref 0) 3 104 [Sym 7; Num 9] /\
    SEND t zoo_heap (Ref 2) 6 [] = NoObject /\ SEND t zoo_heap (Ref 2) 7 [] = NoMethod /\
    place_interpreted t zoo_heap (Ref 0) 11 = Some 1 /\ place_compiled t 2 11 = Some 1.
Proof.
  split; [intros c sup slots M; cbn in M; intuition discriminate|]. split.
  - intros [|[|[|o]]] x E; try (injection E as <-; cbn; split; [lia|]; intros v M; cbn in M; intuition (subst; cbn; auto; lia)). destruct o; discriminate E.
  - split; [repeat (eapply LStep; [reflexivity|]); apply LRoot|]. split; [reflexivity|]. eexists. split; [reflexivity|]. repeat (split; [reflexivity|]). reflexivity.
Qed.

Print Assumptions C100_lookup_partial.
Print Assumptions C100_send_partial.
Print Assumptions C100_super_partial.
Print Assumptions C100_slots_partial.
Print Assumptions C100_send_if_found_partial.
Print Assumptions C100_refuted.
