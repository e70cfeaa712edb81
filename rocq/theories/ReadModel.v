(** Model of the printer and the reader for lists, vectors, strings, symbols and integers
    (lisp/c/printer.c, lisp/c/reader.c) under the default readtable, with *print-circle* NIL, and with
    :upcase as the read case.  Text is a list of byte values 0..255.

    Simplifications.  A symbol is its name and whether it is a keyword: symbols of the current package
    print without a prefix and are found by [intern] (C24), symbols of other packages, uninterned symbols,
    labels (#n= #n#), floats, ratios, structures and the other # macros are not modelled: reading one is
    [Unsup], except that a token of a float or a ratio is read as an opaque [DFlt].  The C locale is
    assumed for isupper and islower. *)
From Verif Require Import Word BigModel IntTextModel.

Inductive datum :=
| DInt (o : intobj)
| DFlt (token : list Z)                    (* the float or ratio denoted by a token *)
| DSym (kw : bool) (name : list Z)
| DStr (chars : list Z)
| DVec (elts : list datum)
| DCons (a d : datum).

Definition NIL : datum := DSym false [78; 73; 76].
Definition QUOTE : datum := DSym false [81; 85; 79; 84; 69].
Definition FUNCTION : datum := DSym false [70; 85; 78; 67; 84; 73; 79; 78].

(** eus.h:460-469 and the table reader.c:49-113 *)
Inductive ctype := Illegal | White | Constituent | SglEscape | MultiEscape | TermMacro | NonTerMacro.

Definition chartype (c : Z) : ctype :=
  if c <? 8 then Illegal
  else if c =? 8 then Constituent
  else if c <=? 10 then White
  else if c =? 11 then Illegal
  else if c <=? 13 then White
  else if c <? 32 then Illegal
  else if c =? 32 then White
  else if c =? 34 then TermMacro                          (* double quote *)
  else if c =? 35 then NonTerMacro                        (* # *)
  else if (39 <=? c) && (c <=? 41) then TermMacro         (* ' ( ) *)
  else if c =? 44 then TermMacro                          (* , *)
  else if c =? 59 then TermMacro                          (* ; *)
  else if c =? 92 then SglEscape                          (* backslash *)
  else if c =? 124 then MultiEscape                       (* | *)
  else Constituent.

(** The syntax table of the default readtable: reader.c:1068-1069, then set-macro-character on the
    backquote (l/readmacro.l:41, lispio.c:360-383). *)
Definition syntax (c : Z) : ctype := if c =? 96 then TermMacro else chartype c.

(** The macro vector of the readtable holds a function for these characters (reader.c:1039-1044,
    l/readmacro.l:40-41). *)
Definition has_macro (c : Z) : bool :=
  (c =? 40) || (c =? 41) || (c =? 35) || (c =? 39) || (c =? 34) || (c =? 59) || (c =? 44) || (c =? 96).

(** reader.c:115-180 [charattr]: the package marker is the colon. *)
Definition package_marker (c : Z) : bool := c =? 58.

(** reader.c:25, printer.c:21 [to_lower]; islower *)
Definition to_lower (c : Z) : Z := if (65 <=? c) && (c <=? 90) then c - 65 + 97 else c.
Definition islower (c : Z) : bool := (97 <=? c) && (c <=? 122).

(** * Printer *)

(** printer.c:100-108: must the name be written between bars? *)
Definition escape_char (c : Z) : bool :=
  (match chartype c with Constituent => false | _ => true end)
  || islower c || package_marker c || (c =? 96) || has_macro c.

Definition escape (base : Z) (name : list Z) : bool :=
  existsb escape_char name || forallb (is_digit base) name.

(** printer.c:110-118: the name is copied through the buffer [b] of 256 bytes; [i] is the fill of [b],
    the bound on [i] is the number of characters left.  [None]: the write past [b] when a bar falls on
    its last byte. *)
Fixpoint name_loop (down : bool) (s : list Z) (i : Z) : option (list Z) :=
  match s with
  | [] => Some []
  | c :: r =>
      let i := if (i <? Z.of_nat (length s)) && (i <? 256) then i else 0 in
      let c' := if down then to_lower c else c in
      match chartype c with
      | MultiEscape =>
          if 256 <=? i + 1 then None
          else option_map (fun t => 92 :: c' :: t) (name_loop down r (i + 2))
      | _ => option_map (fun t => c' :: t) (name_loop down r (i + 1))
      end
  end.

(** printer.c:83-127 [printsym] with slashflag 0 (prin1), and 49-81 [symprefix] for symbols of the
    current package and keywords. *)
Definition printsym (base : Z) (down kw : bool) (name : list Z) : option (list Z) :=
  let esc := escape base name in
  match name_loop (negb esc && down) name 0 with
  | None => None
  | Some t => Some ((if kw then [58] else []) ++ (if esc then [124] ++ t ++ [124] else t))
  end.

(** printer.c:129-140 [printstr] *)
Fixpoint str_loop (s : list Z) : list Z :=
  match s with
  | [] => []
  | c :: r => if (c =? 34) || (c =? 92) then 92 :: c :: str_loop r else c :: str_loop r
  end.
Definition printstr (s : list Z) : list Z := [34] ++ str_loop s ++ [34].

(** [app o p]: write o, then p. *)
Definition oapp (o p : option (list Z)) : option (list Z) :=
  match o, p with Some a, Some b => Some (a ++ b) | _, _ => None end.

Definition is_sym (x : datum) (n : datum) : bool :=
  match x, n with
  | DSym false a, DSym false b => if list_eq_dec Z.eq_dec a b then true else false
  | _, _ => false
  end.

Section Print.
  Variables (base : Z) (down : bool).
  Variable plen : Z.       (* printer.c:333-339 [getprlength] *)

  (** printer.c:548-595 [prin1], 473-500 [printlist], 385-403 [printvector] for vectors of class
      vector.  printlist is called with prlevel-1 and passes prlevel-1 once more for the two
      abbreviations. *)
  Fixpoint prin1 (lev : Z) (x : datum) {struct x} : option (list Z) :=
    if lev <=? 0 then Some [35]
    else
    match x with
    | DInt o => print_integer base down o
    | DFlt _ => None
    | DSym kw name => printsym base down kw name
    | DStr s => Some (printstr s)
    | DVec l =>
        let elements :=
          if plen <=? 0 then (match l with [] => Some [] | _ => Some [46; 46; 46; 32] end)
          else
          (fix elements (l : list datum) : option (list Z) :=
             match l with
             | [] => Some []
             | e :: r => oapp (prin1 (lev - 1) e)
                              (match r with [] => Some [] | _ => oapp (Some [32]) (elements r) end)
             end) l in
        oapp (Some [35; 40]) (oapp elements (Some [41]))
    | DCons a d =>
        let whole :=
          oapp (Some [40])
            (oapp (prin1 (lev - 1) a)
               (oapp
                  ((fix tail (n : Z) (d : datum) {struct d} : option (list Z) :=
                      match d with
                      | DCons b d' =>
                          if n - 1 <=? 0 then Some [32; 46; 46; 46]
                          else oapp (Some [32]) (oapp (prin1 (lev - 1) b) (tail (n - 1) d'))
                      | _ => if is_sym d NIL then Some []
                             else oapp (Some [32; 46; 32]) (prin1 (lev - 1) d)
                      end) plen d)
                  (Some [41]))) in
        match d with
        | DCons b e =>
            if is_sym a QUOTE && is_sym e NIL then oapp (Some [39]) (prin1 (lev - 2) b)
            else if is_sym a FUNCTION && is_sym e NIL then oapp (Some [35; 39]) (prin1 (lev - 2) b)
            else whole
        | _ => whole
        end
    end.
End Print.

(** * Reader *)

Inductive rres :=
| Val (x : datum) (rest : list Z)
| Unb (rest : list Z)          (* UNBOUND: a comment or a right parenthesis was read *)
| Eof
| Err                          (* the reader signals an error *)
| Undef                        (* index outside the syntax table, read past the end *)
| Unsup                        (* syntax not modelled *)
| Fuel.

(** reader.c:197-220 [skip], [nextch]; the character is kept in a C char, so that bytes from 128 to 254
    index the syntax table with a negative number and byte 255 is taken for the end of the file. *)
Inductive nres := NCh (c : Z) (rest : list Z) | NEof (rest : list Z) | NUndef.

Fixpoint skip (comment : bool) (inp : list Z) : nres :=
  match inp with
  | [] => NEof []
  | c :: r =>
      if c =? 255 then NEof r
      else if comment then skip (negb (c =? 10)) r
      else if 128 <=? c then NUndef
      else match syntax c with
           | White => skip false r
           | _ => if c =? 59 then skip true r else NCh c r
           end
  end.
Definition nextch (inp : list Z) : nres := skip false inp.

(** reader.c:652-678 [readstring]: the text up to the terminating double quote or the end of file; the
    character after a backslash is taken as it is (at the end of the file EOF is stored as byte 255). *)
Fixpoint readstring (acc : list Z) (inp : list Z) : rres :=
  match inp with
  | [] => Val (DStr (rev acc)) []
  | c :: r =>
      if c =? 34 then Val (DStr (rev acc)) r
      else match syntax c with
           | SglEscape => match r with
                          | [] => Val (DStr (rev (255 :: acc))) []
                          | e :: r' => readstring (e :: acc) r'
                          end
           | _ => readstring (c :: acc) r
           end
  end.

(** reader.c:882-922: steps 8 and 9 of [read2]; [tok] is the token backwards, [i] its length. *)
Inductive tres :=
| TDone (escaped : bool) (tok : list Z) (colon : option nat) (rest : list Z)
| TErr
| TUndef.

Fixpoint read2_loop (multi escaped : bool) (tok : list Z) (i : nat) (colon : option nat) (inp : list Z)
  {struct inp} : tres :=
  if (MAXTOKENLENGTH <=? i)%nat then TErr
  else
  match inp with
  | [] => if multi then TErr else TDone escaped (rev tok) colon []
  | c :: r =>
      if multi then
        match syntax c with
        | Constituent | White | NonTerMacro | TermMacro => read2_loop true true (c :: tok) (S i) colon r
        | SglEscape => match r with
                       | [] => TUndef
                       | e :: r' => read2_loop true true (e :: tok) (S i) colon r'
                       end
        | MultiEscape => read2_loop false true tok i colon r
        | Illegal => TErr
        end
      else
        match syntax c with
        | Constituent | NonTerMacro =>
            read2_loop false escaped (to_upper c :: tok) (S i)
                       (if package_marker c then Some i else colon) r
        | SglEscape => match r with
                       | [] => TUndef
                       | e :: r' => read2_loop false true (e :: tok) (S i) colon r'
                       end
        | MultiEscape => read2_loop true true tok i colon r
        | Illegal => TErr
        | TermMacro | White => TDone escaped (rev tok) colon inp
        end
  end.

(** reader.c:923-966: step 10, the analysis of an unescaped token. *)
Inductive tclass := CSym | CInt | CFlt.

Fixpoint dropdigits (base : Z) (t : list Z) : list Z :=
  match t with
  | c :: r => if is_digit base c then dropdigits base r else t
  | [] => []
  end.

Definition is_sign (c : Z) : bool := (c =? 43) || (c =? 45).

Definition is_expo (c : Z) : bool :=
  let c := to_upper c in (c =? 69) || (c =? 68) || (c =? 70) || (c =? 76).

(** 940-947 and 957-965 *)
Definition exponent (base : Z) (t : list Z) : tclass :=
  match t with
  | [] => CFlt
  | c :: r =>
      if is_expo c then
        let r := match r with s :: r' => if is_sign s then r' else r | [] => [] end in
        match dropdigits base r with [] => CFlt | _ => CSym end
      else CSym
  end.

Definition classify_body (base : Z) (t : list Z) : tclass :=
  match t with
  | [] => CSym
  | h :: _ =>
      if is_digit base h || (h =? 46) then
        match dropdigits base t with
        | [] => CInt
        | c :: t2 =>
            if c =? 46 then match t2 with [] => CInt | _ => exponent base (dropdigits base t2) end
            else if c =? 47 then
              match t2 with
              | [] => CSym
              | _ => match dropdigits base t2 with [] => CFlt | _ => CSym end
              end
            else exponent base (c :: t2)
        end
      else CSym
  end.

Definition classify (base : Z) (tok : list Z) : tclass :=
  match tok with
  | [] => CSym
  | c :: r => if is_sign c then classify_body base r
              else if c =? 46 then match r with [] => CSym | _ => classify_body base tok end
              else classify_body base tok
  end.

(** reader.c:680-712 [readsymbol], for the current package and the keyword package *)
Definition readsymbol (tok : list Z) (colon : option nat) (rest : list Z) : rres :=
  match colon with
  | None => Val (DSym false tok) rest
  | Some O => Val (DSym true (tl tok)) rest
  | Some (S _) => Unsup
  end.

Section Read.
  Variable base : Z.

  Definition read2 (t : tres) : rres :=
    match t with
    | TErr => Err
    | TUndef => Undef
    | TDone true tok colon rest => readsymbol tok colon rest
    | TDone false tok colon rest =>
        match classify base tok with
        | CSym => readsymbol tok colon rest
        | CInt => match readint base tok with Some o => Val (DInt o) rest | None => Err end
        | CFlt => Val (DFlt tok) rest
        end
    end.

  (** reader.c:804-809: the elements are popped from the stack *)
  Fixpoint build (acc : list datum) (d : datum) : datum :=
    match acc with [] => d | e :: r => build r (DCons e d) end.

  (** reader.c:838-842 [readcomment] *)
  Fixpoint to_newline (inp : list Z) : list Z :=
    match inp with
    | [] => []
    | c :: r => if (c =? 10) || (c =? 255) then r else to_newline r
    end.

  (** reader.c:968-1015 [read1] with the macro functions 780-846, 531-536, 625-650 and 319-332;
      780-810 [read_delimited_list]; 319-332 [readvector] without a size. *)
  Fixpoint read1 (fuel : nat) (inp : list Z) {struct fuel} : rres :=
    match fuel with
    | O => Fuel
    | S f =>
        match inp with
        | [] => Eof
        | c :: r =>
            match syntax c with
            | Illegal => Err
            | White => read1 f r
            | TermMacro | NonTerMacro =>
                if c =? 40 then read_list f [] r
                else if c =? 41 then Unb r
                else if c =? 39 then
                  match read1 f r with
                  | Val x r' => Val (DCons QUOTE (DCons x NIL)) r'
                  | Unb _ => Unsup
                  | e => e
                  end
                else if c =? 34 then readstring [] r
                else if c =? 59 then Unb (to_newline r)
                else if c =? 35 then
                  match r with
                  | [] => Unb []
                  | c' :: r' =>
                      if c' =? 39 then
                        match read1 f r' with
                        | Val x r'' => Val (DCons FUNCTION (DCons x NIL)) r''
                        | Unb _ => Unsup
                        | e => e
                        end
                      else if c' =? 40 then read_vector f [] r'
                      else Unsup
                  end
                else Unsup
            | SglEscape => match r with
                           | [] => Undef
                           | e :: r' => read2 (read2_loop false true [e] 1 None r')
                           end
            | MultiEscape => read2 (read2_loop true true [] 0 None r)
            | Constituent =>
                read2 (read2_loop false false [to_upper c] 1 (if package_marker c then Some 0%nat else None) r)
            end
        end
    end
  with read_list (fuel : nat) (acc : list datum) (inp : list Z) {struct fuel} : rres :=
    match fuel with
    | O => Fuel
    | S f =>
        match nextch inp with
        | NUndef => Undef
        | NEof r => Val (build acc NIL) r
        | NCh c r =>
            if c =? 41 then Val (build acc NIL) r
            else if c =? 46 then
              match r with
              | [] => Undef
              | d :: _ =>
                  if 128 <=? d then Undef
                  else match syntax d with
                       | Constituent =>
                           match read2 (read2_loop false false [46] 1 None r) with
                           | Val x r' => read_list f (x :: acc) r'
                           | e => e
                           end
                       | White =>
                           match read1 f r with
                           | Val x r' =>
                               match nextch r' with
                               | NCh c' r'' => if c' =? 41 then Val (build acc x) r'' else Err
                               | NEof _ => Err
                               | NUndef => Undef
                               end
                           | Unb _ => Unsup
                           | Eof => Unsup
                           | e => e
                           end
                       | _ => Err
                       end
              end
            else
              match read1 f (c :: r) with
              | Val x r' => read_list f (x :: acc) r'
              | Unb r' => read_list f acc r'
              | Eof => Val (build acc NIL) []
              | e => e
              end
        end
    end
  with read_vector (fuel : nat) (acc : list datum) (inp : list Z) {struct fuel} : rres :=
    match fuel with
    | O => Fuel
    | S f =>
        match nextch inp with
        | NUndef => Undef
        | NEof r => Val (DVec (rev acc)) r
        | NCh c r =>
            if c =? 41 then Val (DVec (rev acc)) r
            else
              match read1 f (c :: r) with
              | Val x r' => read_vector f (x :: acc) r'
              | Unb _ => Unsup
              | Eof => Unsup
              | e => e
              end
        end
    end.

  (** reader.c:1022-1023: right parentheses before the datum are skipped *)
  Fixpoint skip_rparens (fuel : nat) (inp : list Z) : nres :=
    match nextch inp with
    | NCh c r => if c =? 41 then match fuel with O => NUndef | S f => skip_rparens f r end else NCh c r
    | o => o
    end.

  (** reader.c:1017-1035 [reader] *)
  Definition reader (fuel : nat) (inp : list Z) : rres :=
    match skip_rparens (length inp) inp with
    | NUndef => Undef
    | NEof _ => Eof
    | NCh c r => match read1 fuel (c :: r) with
                 | Unb r' => Val NIL r'
                 | o => o
                 end
    end.
End Read.

(** printer.c:618-647 [prinx] with *print-level* and *print-length* NIL: both limits are 65536; the
    buffer of a reader of the text needs no more fuel than twice its length. *)
Definition print_datum (base : Z) (down : bool) (x : datum) : option (list Z) :=
  prin1 base down 65536 65536 x.
Definition read_text (base : Z) (txt : list Z) : rres := reader base (2 * length txt) txt.
