(** Specification for C89: a sequence of any kind is the list of its elements. *)
From Verif Require Import VecProofs VseqModel.
Open Scope Z_scope.

Definition contents (q : sequ) : list value :=
  match q with
  | Lst l => l
  | Vec v => elements v
  | Arr a => firstn (Z.to_nat (nth 0 (a_dims a) 0)) (skipn (Z.to_nat (a_off a)) (elements (a_ent a)))
  end.
(** a sequence as the system makes it: an array of one dimension lies within its vector *)
Definition proper (q : sequ) : Prop :=
  match q with
  | Lst _ => True
  | Vec v => wf_vec v
  | Arr a => wf_vec (a_ent a) /\ exists d, a_dims a = [d] /\ 0 <= d /\ 0 <= a_off a /\ a_off a + d <= Z.of_nat (vecsize (a_ent a))
  end.
(** the array reaches to the end of its vector *)
Definition to_end (q : sequ) : Prop :=
  match q with Arr a => a_off a + nth 0 (a_dims a) 0 = Z.of_nat (vecsize (a_ent a)) | _ => True end.
Definition sort_of (q : sequ) : kind := match q with Lst _ => KList | Vec v => kind_of v | Arr a => kind_of (a_ent a) end.
(** what a sequence of some kind keeps of a value *)
Definition kept (k : kind) (x : value) : option value :=
  match k, x with
  | KBit, Int z => Some (Int (z mod 2))
  | KByte, Int z => Some (Int (z mod 256))
  | KInt, Int z => Some (Int (wrap64 z))
  | KPtr, _ | KList, _ => Some x
  | _, Obj _ => None
  end.
Fixpoint keep_all (k : kind) (l : list value) : option (list value) :=
  match l with
  | [] => Some []
  | x :: r => match kept k x, keep_all k r with Some y, Some s => Some (y :: s) | _, _ => None end
  end.
(** a new sequence of the kind with these elements; an error if one of them cannot be kept *)
Definition makes (k : kind) (l : list value) (o : out sequ) : Prop :=
  match keep_all k l with
  | Some l' => exists q, o = Ret q /\ proper q /\ sort_of q = k /\ (forall a, q <> Arr a) /\ contents q = l'
  | None => o = Error
  end.
(** the arguments of the successive calls of MAP *)
Definition shortest (ls : list (list value)) : nat := match ls with [] => 0%nat | l :: r => fold_left (fun n l => Nat.min n (length l)) r (length l) end.
Definition columns (ls : list (list value)) : list (list value) := map (fun i => map (fun l => nth i l NIL) ls) (seq 0 (shortest ls)).
Fixpoint calls {S} (f : S -> list value -> out (S * value)) (s : S) (args : list (list value)) : out (S * list value) :=
  match args with
  | [] => Ret (s, [])
  | xs :: r => do (s, y) <- f s xs; do (s, ys) <- calls f s r; Ret (s, y :: ys)
  end.
