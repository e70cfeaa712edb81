(** Model of the readers of #x and #o numerals (lisp/c/reader.c:485-530), on the text after the macro character.  Text
    is a list of character codes; the end of the text is the end of the stream. *)
From Coq Require Import List ZArith Bool Lia.
From Verif Require Import Word BigModel.
Import ListNotations.
Open Scope Z_scope.

(** C library isxdigit *)
Definition isxdigit (c : Z) : bool :=
  ((48 <=? c) && (c <=? 57)) || ((65 <=? c) && (c <=? 70)) || ((97 <=? c) && (c <=? 102)).

(** reader.c:495-497: the loop that fills buf with at most [n] digits; the next character is put back *)
Fixpoint take_digits (ok : Z -> bool) (n : nat) (f : list Z) : list Z * list Z :=
  match n, f with
  | S n, c :: r => if ok c then let t := take_digits ok n r in (c :: fst t, snd t) else ([], f)
  | _, _ => ([], f)
  end.

(** reader.c:507-508 *)
Definition hexval (ch : Z) : Z :=
  let c := if (97 <=? ch) && (ch <=? 122) then ch - 32 else ch in
  if c <=? 57 then c - 48 else c - 65 + 10.

(** C library sscanf with %lx and %lo on digits, while the number fits in a long *)
Definition scan (base : Z) (buf : list Z) : Z := fold_left (fun v c => v * base + hexval c) buf 0.

Fixpoint set_word (n : nat) (l : list Z) (v : Z) : list Z :=
  match l, n with
  | [], _ => []
  | _ :: r, O => v :: r
  | y :: r, S n => y :: set_word n r v
  end.

(** reader.c:506-513: the loop over the digits, last one first; an index out of the vector is [None] *)
Fixpoint pack (ds : list Z) (bv : list Z) (p q : Z) : option (list Z) :=
  match ds with
  | [] => Some bv
  | ch :: r =>
      let x := hexval ch in
      let k := Z.to_nat (p / 63) in
      if (length bv <=? k)%nat then None
      else
        let bv := set_word k bv (Z.lor (nth k bv 0) (Z.land (wrap64 (Z.shiftl x q)) MASK)) in
        if (60 <=? q) && negb (Z.shiftr x (63 - q) =? 0) then
          if (length bv <=? k + 1)%nat then None
          else pack r (set_word (k + 1) bv (Z.shiftr x (63 - q))) (p + 4) ((q + 4) mod 63)
        else pack r bv (p + 4) ((q + 4) mod 63)
  end.

(** reader.c:485-516.  [val] is the number between # and x. *)
Definition read_sharp_hex (val : Z) (f : list Z) : outcome (intobj * list Z) :=
  let t := take_digits isxdigit 64 f in
  let buf := fst t in
  let i := Z.of_nat (length buf) in
  let b0 := nth 0 buf 0 in
  let j := i * 4 - (if b0 <? 50 then 3 else if b0 <? 52 then 2 else if b0 <? 56 then 1 else 0) in
  if j <? 62 then
    (* sscanf leaves val alone if there is no digit *)
    Ok (makeint (match buf with [] => val | _ => scan 16 buf end), snd t)
  else
    match pack (rev buf) (repeat 0 (Z.to_nat ((j + 62) / 63))) 0 0 with
    | Some bv => Ok (normalize_bignum (Big bv), snd t)
    | None => UB
    end.

(** reader.c:518-530.  buf has 32 characters, the zero included; sscanf's result does not count beyond a long. *)
Definition isodigit (c : Z) : bool := (48 <=? c) && (c <? 56).

Definition read_sharp_octal (f : list Z) : outcome (intobj * list Z) :=
  let t := take_digits isodigit 32 f in
  let buf := fst t in
  if (32 <=? length buf)%nat then UB
  else
    let v := scan 8 buf in
    if 2 ^ 63 <=? v then UB
    else Ok (makeint (match buf with [] => 0 | _ => v end), snd t).
