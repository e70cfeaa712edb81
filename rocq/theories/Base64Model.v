(** Model of lib/llib/base64.l:9-80 (base64encode, base64decode).

    Strings are those of [StrModel].  ash, logand, logior and mod act on small non-negative fixnums here (properties C13
    and C14), so they are the operations on Z.  The string stream is modelled as the list of bytes written (property C45).
    The index j into the string is modelled by the rest of the string from j on. *)
From Verif Require Import Word StrModel.

(** base64.l:9-15 *)
Definition bin2base64 (x : Z) : result Z :=
  if x <? 26 then Val (x + 65)
  else if x <? 52 then Val (x + 97 + -26)
  else if x <? 62 then Val (x + 48 + -52)
  else if x =? 62 then Val 43
  else if x =? 63 then Val 47
  else Error.

(** base64.l:17-24 *)
Definition base64tobin (x : Z) : result Z :=
  if (65 <=? x) && (x <=? 90) then Val (x - 65)
  else if (97 <=? x) && (x <=? 122) then Val (x - 97 - -26)
  else if (48 <=? x) && (x <=? 57) then Val (x - 48 - -52)
  else if x =? 43 then Val 62
  else if x =? 47 then Val 63
  else if x =? 61 then Val 77
  else Error.

(** The output so far, last byte first, and outcount; write-byte keeps the low byte (lisp/c/lispio.c:304-317) *)
Definition put (c : Z) (o : str) : str := c mod 256 :: o.

(** base64.l:47-48, 51-52, 54-55: a character, and a line feed after every 76 *)
Definition put_counted (c : Z) (st : str * Z) : str * Z :=
  let o := put c (fst st) in
  let n := snd st + 1 in
  (if n mod 76 =? 0 then put 10 o else o, n).

(** base64.l:30-49: the while loop; [None] of the option only if [fuel] is too small.  The results are the mode and the
    output. *)
Fixpoint enc_loop (fuel : nat) (s : str) (mode : Z) (st : str * Z) : option (result (Z * (str * Z))) :=
  match s with
  | [] => Some (Val (mode, st))
  | byte1 :: r =>
      match fuel with
      | O => None
      | S f =>
          let step :=
            if mode =? 0 then (Z.shiftr byte1 2, s)
            else if mode =? 1 then
              (let x := Z.shiftl (Z.land byte1 3) 4 in
               match r with byte1 :: _ => x + Z.shiftr byte1 4 | [] => x end, r)
            else if mode =? 2 then
              (let x := Z.shiftl (Z.land byte1 15) 2 in
               match r with byte1 :: _ => x + Z.shiftr byte1 6 | [] => x end, r)
            else (Z.land byte1 63, r) in
          match bin2base64 (fst step) with
          | Val c => enc_loop f (snd step) ((mode + 1) mod 4) (put_counted c st)
          | Error => Some Error
          | Undef => Some Undef
          end
      end
  end.

(** base64.l:26-57 *)
Definition base64encode (binstr : str) : result str :=
  match enc_loop (4 * length binstr) binstr 0 ([], 0) with
  | None => Undef
  | Some r =>
      bind r (fun ms =>
      let mode := fst ms in
      let st := snd ms in
      Val (rev (fst (if mode >? 0 then
                       let st := put_counted 61 st in
                       if mode <? 3 then put_counted 61 st else st
                     else st))))
  end.

(** base64.l:62-78: the while loop, on the rest of the text; [x] is unbound (0) at first *)
Fixpoint dec_loop (t : str) (x mode : Z) (o : str) : result (Z * Z * str) :=
  match t with
  | [] => Val (x, mode, o)
  | a :: t' =>
      if (a >? 33) && negb (a =? 61) then
        bind (base64tobin a) (fun b =>
        let xo :=
          if mode =? 0 then (Z.shiftl b 2, o)
          else if mode =? 1 then (Z.shiftl (Z.land b 15) 4, put (Z.lor x (Z.shiftr b 4)) o)
          else if mode =? 2 then (Z.shiftl (Z.land b 3) 6, put (Z.lor x (Z.shiftr b 2)) o)
          else (Z.lor x b, put (Z.lor x b) o) in
        dec_loop t' (fst xo) ((mode + 1) mod 4) (snd xo))
      else dec_loop t' x mode o
  end.

(** base64.l:59-80 *)
Definition base64decode (ascstr : str) : result str :=
  bind (dec_loop ascstr 0 0 []) (fun r =>
  let x := fst (fst r) in
  let mode := snd (fst r) in
  let o := snd r in
  Val (rev (if mode >? 0 then put x o else o))).
