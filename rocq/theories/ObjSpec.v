(** Specification for C100: inheritance, read off the definitions. *)
From Coq Require Import ZArith List Bool Arith.
From Verif Require Import ObjModel.
Import ListNotations.
Open Scope nat_scope.

(** no class is defined anew *)
Definition fresh (ops : list op) : Prop := forall c sup slots, ~ In (Redefine c sup slots) ops.
(** the superclasses and the slots, in the order of definition; class 0 is [object] *)
Fixpoint definitions (ops : list op) : list (nat * list (nat * fwd)) :=
  match ops with [] => [] | NewClass sup slots :: r => (sup, slots) :: definitions r | _ :: r => definitions r end.
Definition super_of (ops : list op) (c : nat) : option nat :=
  match c with O => None | S n => match nth_error (definitions ops) n with Some (s, _) => Some s | None => None end end.
Definition own_slots (ops : list op) (c : nat) : list (nat * fwd) :=
  match c with O => [] | S n => match nth_error (definitions ops) n with Some (_, l) => l | None => [] end end.
(** a class and its superclasses, nearest first *)
Inductive lineage (ops : list op) : nat -> list nat -> Prop :=
| LRoot : lineage ops 0 [0]
| LStep c s l : super_of ops c = Some s -> lineage ops s l -> lineage ops c (c :: l).
(** the method last defined for a selector in a class itself *)
Fixpoint own_method (ops : list op) (c sel : nat) (m : option nat) : option nat :=
  match ops with
  | [] => m
  | AddMethod d s n :: r => own_method r c sel (if (d =? c) && (s =? sel) then Some n else m)
  | _ :: r => own_method r c sel m
  end.
(** all methods for a selector along a lineage, nearest first *)
Definition method_list (ops : list op) (l : list nat) (sel : nat) : list (nat * nat) :=
  flat_map (fun d => match own_method ops d sel None with Some m => [(d, m)] | None => [] end) l.

(** all slots of a class, with their :forward: those of [object] first *)
Definition all_slots (ops : list op) (l : list nat) : list (nat * fwd) := flat_map (own_slots ops) (rev l).
Definition wants (sel : nat) (f : fwd) : Prop := match f with FAll => True | FSome l => In sel l end.
(** the class of an object, and the methods it has for a selector *)
Definition responds (ops : list op) (h : heap) (v : val) (sel : nat) (ms : list (nat * nat)) : Prop :=
  exists c l, classof h v = Some c /\ lineage ops c l /\ ms = method_list ops l sel.
Definition deaf (ops : list op) (h : heap) (sel : nat) (ps : list (fwd * val)) : Prop :=
  forall f v, In (f, v) ps -> wants sel f -> responds ops h v sel [].
(** what is to become of a message *)
Inductive answer (ops : list op) (h : heap) (r : val) (sel : nat) (args : list val) : outcome -> Prop :=
| ANumber z : r = Num z -> answer ops h r sel args NoObject
| AMethod d m ms : responds ops h r sel ((d, m) :: ms) -> answer ops h r sel args (Run r d m args)
| AForward c l pre f comp post d m ms : responds ops h r sel [] -> classof h r = Some c -> lineage ops c l ->
    combine (map snd (all_slots ops l)) (slots_of h r) = pre ++ (f, comp) :: post ->
    deaf ops h sel pre -> wants sel f -> responds ops h comp sel ((d, m) :: ms) -> answer ops h r sel args (Run comp d m args)
| AForwardNumber c l pre f z post : responds ops h r sel [] -> classof h r = Some c -> lineage ops c l ->
    combine (map snd (all_slots ops l)) (slots_of h r) = pre ++ (f, Num z) :: post ->
    deaf ops h sel pre -> wants sel f -> answer ops h r sel args NoObject
| ANoMethod c l d m ms : responds ops h r sel [] -> classof h r = Some c -> lineage ops c l ->
    deaf ops h sel (combine (map snd (all_slots ops l)) (slots_of h r)) ->
    responds ops h r K_NOMETHOD ((d, m) :: ms) -> answer ops h r sel args (Run r d m (Sym sel :: args))
| AError c l : responds ops h r sel [] -> classof h r = Some c -> lineage ops c l ->
    deaf ops h sel (combine (map snd (all_slots ops l)) (slots_of h r)) ->
    responds ops h r K_NOMETHOD [] -> answer ops h r sel args NoMethod.
(** a heap whose references are to objects of the classes defined *)
Definition sound_val (h : heap) (v : val) : Prop := match v with Ref o => o < length h | _ => True end.
Definition sound (ops : list op) (h : heap) : Prop :=
  forall o x, nth_error h o = Some x -> klass x < S (length (definitions ops)) /\ forall v, In v (iv x) -> sound_val h v.
