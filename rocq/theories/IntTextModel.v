(** Model of integer printing (lisp/c/printer.c:150-183 [printint], 230-272 [printbig]) and of reading
    an integer token (lisp/c/reader.c:738-768 [readint], 770-779 [is_digit], the token loop and the
    classification in [read2], 868-966).  Text is a list of character codes.

    Field padding (field1, field2) is not modelled: [print] passes 0 and 0 (printer.c:558-568). *)
From Verif Require Import Word BigModel.

(** printer.c:171-173; [printbig] (262-267) chooses the same characters. *)
Definition digit_char (base : Z) (downcase : bool) (d : Z) : Z :=
  if (base <=? 10) || (d <? 10) then 48 + d
  else if downcase then 97 + d - 10 else 65 + d - 10.

(** printer.c:162-174: the do-while loop on the unsigned number; [work] is filled from the right.
    Fuel 65 is the size of [work]; running out of it would be a buffer underrun. *)
Fixpoint printint_loop (fuel : nat) (base : Z) (down : bool) (num : Z) (acc : list Z) : option (list Z) :=
  match fuel with
  | O => None
  | S f =>
      let acc := digit_char base down (num mod base) :: acc in
      let num := num / base in
      if num =? 0 then Some acc else printint_loop f base down num acc
  end.

Definition printint (base : Z) (down : bool) (num : Z) : option (list Z) :=
  let u := (if num <? 0 then wrap64 (- num) else num) mod 2 ^ 64 in
  match printint_loop 65 base down u [] with
  | None => None
  | Some w => Some ((if num <? 0 then [45] else []) ++ w)
  end.

(** printer.c:250-254 and 262-268: divide until zero, pushing the digits. *)
Fixpoint printbig_loop (fuel : nat) (base : Z) (down : bool) (ds : list Z) (acc : list Z) : option (list Z) :=
  if big_zerop ds then Some acc
  else match fuel with
       | O => None
       | S f =>
           let t := div_int_big base ds in
           printbig_loop f base down (fst t) (digit_char base down (snd t) :: acc)
       end.

Definition printbig (base : Z) (down : bool) (ds : list Z) : option (list Z) :=
  let sign := big_sign ds in
  let b := if sign <? 0 then big_minus ds else ds in
  match printbig_loop (64 * length b) base down b [] with
  | None => None
  | Some w => Some ((if sign <? 0 then [45] else []) ++ w)
  end.

(** printer.c:274-285 *)
Definition print_integer (base : Z) (down : bool) (o : intobj) : option (list Z) :=
  match o with
  | Imm w => printint base down (intval o)
  | Big ds => printbig base down ds
  end.

(** reader.c:24 [to_upper] *)
Definition to_upper (c : Z) : Z := if (97 <=? c) && (c <=? 122) then c - 97 + 65 else c.

(** reader.c:770-779 *)
Definition is_digit (base ch : Z) : bool :=
  if ch <? 48 then false
  else if base <=? 10 then ch <? 48 + base
  else if ch <=? 57 then true
  else (65 <=? ch) && (ch <? 65 + base - 10).

(** reader.c:757-761 *)
Definition char_digit (k : Z) : option Z :=
  if (48 <=? k) && (k <=? 57) then Some (k - 48)
  else if (65 <=? k) && (k <=? 90) then Some (k - 65 + 10)
  else if (97 <=? k) && (k <=? 122) then Some (k - 97 + 10)
  else None.

(** C library [strtol] on a token (digits of the base, optional sign), stopping at the first character
    that is not a digit of the base.  Tokens of at most 7 characters cannot overflow a long. *)
Fixpoint strtol_digits (base v : Z) (s : list Z) : Z :=
  match s with
  | [] => v
  | c :: r => match char_digit c with
              | Some d => if d <? base then strtol_digits base (v * base + d) r else v
              | None => v
              end
  end.

Definition strtol (base : Z) (s : list Z) : Z :=
  match s with
  | c :: r => if c =? 43 then strtol_digits base 0 r
              else if c =? 45 then - strtol_digits base 0 r
              else strtol_digits base 0 s
  | [] => 0
  end.

(** reader.c:755-764: the digit loop on the bignum [b]; [None] is "illegal integer constituent" *)
Fixpoint readint_loop (base : Z) (s : list Z) (b : list Z) : option (list Z) :=
  match s with
  | [] => Some b
  | k :: r =>
      match char_digit k with
      | Some d => readint_loop base r (add_int_big d (mul_int_big base b))
      | None => if k =? 46 then readint_loop base r b else None
      end
  end.

(** reader.c:738-768 [readint]; [i] is a C [int], so the short path truncates to 32 bits *)
Definition readint (base : Z) (token : list Z) : option intobj :=
  if (length token <? 8)%nat then Some (makeint (wrap32 (strtol base token)))
  else
    let head := match token with c :: _ => (c =? 43) || (c =? 45) | [] => false end in
    let neg := match token with c :: _ => c =? 45 | [] => false end in
    match readint_loop base (if head then tl token else token) [0] with
    | None => None
    | Some b => Some (normalize_bignum (Big (if neg then complement_big b else b)))
    end.

(** reader.c:883-895 and 926-955 for an unescaped token made of constituents: upcase, length check,
    then the integer branch of the classification.  [None]: not read as an integer (error, float,
    ratio or symbol). *)
Definition MAXTOKENLENGTH : nat := 1024.

Definition read_integer_token (base : Z) (txt : list Z) : option intobj :=
  if (MAXTOKENLENGTH <=? length txt)%nat then None
  else
    let token := map to_upper txt in
    let body := match token with c :: r => if (c =? 43) || (c =? 45) then r else token | [] => [] end in
    match body with
    | [] => None
    | _ => if forallb (is_digit base) body then readint base token else None
    end.
