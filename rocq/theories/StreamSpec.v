(** Specification vocabulary for C43-C45. *)
From Verif Require Import StreamModel.

(** All bytes a program writes. *)
Definition written (ops : list oop) : list Z :=
  concat (map (fun o => match o with OCh c => [c] | OStr l => l | OFlush => [] end) ops).

(** [sub a b]: a is obtained from b by leaving out some elements. *)
Inductive sub : list Z -> list Z -> Prop :=
| sub_nil : sub [] []
| sub_keep x a b : sub a b -> sub (x :: a) (x :: b)
| sub_skip x a b : sub a b -> sub a (x :: b).

(** An input as the user sees it: bytes, and [None] where end of file is reported; after the last event
    there is only end of file. *)
Definition event := option Z.

Definition events_of (blocks : list (list Z)) : list event :=
  concat (map (fun b => match b with [] => [None] | _ => map Some b end) blocks).

(** The line at the head of the events: up to a newline or end of file, and what follows. *)
Fixpoint line (ev : list event) : list Z * bool (* newline or eof consumed after >= 1 char *) * list event :=
  match ev with
  | [] => ([], false, [])
  | None :: r => ([], false, r)
  | Some c :: r => if c =? 10 then ([], true, r)
                   else let '(l, _, r') := line r in (c :: l, true, r')
  end.
(** Without the carriage return at the end. *)
Definition chomp (l : list Z) : list Z := match rev l with 13 :: r => rev r | _ => l end.

Fixpoint ispec (ev : list event) (last : option Z) (ops : list iop) : list ires :=
  match ops with
  | [] => []
  | IRead :: r => match ev with
                  | [] => RCh None :: ispec [] None r
                  | c :: ev' => RCh c :: ispec ev' c r
                  end
  | IUnread :: r => match last with
                    | Some c => RUnit :: ispec (Some c :: ev) None r
                    | None => RUnit :: ispec ev None r
                    end
  | IPeek :: r => match ev with
                  | Some c :: _ => RCh (Some c) :: ispec ev None r
                  | None :: ev' => RCh None :: ispec ev' None r
                  | [] => RCh None :: ispec [] None r
                  end
  | ILine :: r => let '(l, some, ev') := line ev in
                  RLine (if some then Some (chomp l) else None) :: ispec ev' None r
  end.

(** A stream as it is made: the readable part lies in the buffer and no block exceeds the buffer. *)
Definition good_input (s : istream) : Prop :=
  (icount s <= itail s <= length (chars s))%nat /\ Forall (fun b => (length b <= length (chars s))%nat) (src s).

Definition pending (s : istream) : list event :=
  map Some (firstn (itail s - icount s) (skipn (icount s) (chars s))) ++ events_of (src s).
