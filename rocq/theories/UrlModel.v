(** Model of the URL escapes and of the numbered file names: lisp/l/string.l:427-520.

    Strings are those of [StrModel].  The string streams are modelled as the characters still to be read and the
    characters written so far (properties C42 to C45 are about streams).  [down] tells whether *print-case* is :downcase. *)
From Verif Require Import Word BigModel IntTextModel StrModel HexModel.

(** string.l:427-453 *)
Definition unreserved_characters : str := [45; 95; 46; 126; 58; 47; 61; 63; 38].   (* -_.~:/=?& *)

Definition unreserved_char_p (c : Z) : bool :=
  ((65 <=? c) && (c <=? 90)) || ((97 <=? c) && (c <=? 122)) || ((48 <=? c) && (c <=? 57)) ||
  existsb (Z.eqb c) unreserved_characters.

(** string.l:437-442; the text has no tilde *)
Definition zero_padding (s : str) (desired : nat) : str := repeat 48 (desired - length s) ++ s.

Definition RETURN : Z := 13.
Definition NEWLINE : Z := 10.
Definition SPACE : Z := 32.

Definition escape_char (down queryp : bool) (c : Z) : result str :=
  if unreserved_char_p c then Val [c]
  else if c =? RETURN then Val [NEWLINE]
  else if queryp && (c =? SPACE) then Val [43]
  else match print_integer 16 down (makeint c) with
       | Some h => Val (37 :: zero_padding h 2)
       | None => Undef
       end.

Fixpoint escape_url (down queryp : bool) (s : str) : result str :=
  match s with
  | [] => Val []
  | c :: r => bind (escape_char down queryp c) (fun e => bind (escape_url down queryp r) (fun t => Val (e ++ t)))
  end.

(** string.l:460-480.  After % the text "#x" and the next two characters are given to the reader; a byte is written
    (lisp/c/lispio.c:304-317).  read-char at the end of the string is an error. *)
Fixpoint unescape_url (queryp : bool) (s : str) : result str :=
  match s with
  | [] => Val []
  | c :: r =>
      if c =? 37 then
        match r with
        | a :: b :: r' =>
            match read_sharp_hex 0 [a; b] with
            | Ok (o, _) => bind (unescape_url queryp r') (fun t => Val (intval o mod 256 :: t))
            | Err => Error
            | UB => Undef
            end
        | _ => Error
        end
      else if (c =? 43) && queryp then bind (unescape_url queryp r) (fun t => Val (SPACE :: t))
      else bind (unescape_url queryp r) (fun t => Val (c :: t))
  end.

(** string.l:491-497 on fixnums: / of two fixnums truncates.  The recursive calls do not pass the base. *)
Definition last_digit (n base : Z) : result str :=
  match print_integer 10 false (makeint (n - Z.quot n base * base)) with Some t => Val t | None => Undef end.

Fixpoint digits_string (n : Z) (digits : nat) (base : Z) : result str :=
  match digits with
  | O | 1%nat => last_digit n base
  | S d => bind (digits_string (Z.quot n base) d 10) (fun h => bind (last_digit n 10) (fun t => Val (h ++ t)))
  end.

(** string.l:519-520 with strings for head and extension *)
Definition sequential_file_name (head : str) (num : Z) (extension : str) (digits : nat) : result str :=
  bind (digits_string num digits 10) (fun t => Val (head ++ t ++ [46] ++ extension)).
