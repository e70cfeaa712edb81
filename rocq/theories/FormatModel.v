(** format: XFORMAT of /repo/lisp/c/lispio.c lines 429-564, with printint and printbig (/repo/lisp/c/printer.c lines 150-183 and
    230-272) in a field, and writech and writestr's count of written characters (/repo/lisp/c/eusstream.c lines 204-240).
    Text is a list of character codes.

    Simplifications: what is written is one list (C43 and C45 are about the streams); what the printer does with an object and what
    the C library's sprintf makes of a float are given with the argument. *)
From Verif Require Import Word BigModel BitsModel IntTextModel.
Open Scope Z_scope.

(** The printer writes text.  An object whose class has a :prin1 method that calls [format], as the manual suggests, also sets the count of written
    characters to zero on the way (lines 473, 497, 503). *)
Inductive act := Put (t : list Z) | Nested.
(** a float: sprintf with %*.*f and %*.*e, whether it is zero, and whether it is below 0.0001 or above 100000 *)
Record floating := Fl { fixed : Z -> Z -> list Z; expon : Z -> Z -> list Z; zero : bool; extreme : bool }.
(** an argument: printed without and with slashes; as an integer; as a number that is no integer; as a float (ckfltval) *)
Record arg := Arg { princ : list act; prin1 : list act; int : option intobj; num_text : option (list Z); flt : option floating }.

Inductive failure := FormatString | MismatchArg | NoNumber | NoInteger.
Inductive result := Done (out : list Z) | Fail (e : failure) (out : list Z) | Undefined.

Definition spaces (j : Z) : list Z := repeat 32 (Z.to_nat j).
Definition zeros (j : Z) : list Z := repeat 48 (Z.to_nat j).
Definition len (t : list Z) : Z := Z.of_nat (length t).
(** eusstream.c 204-240: text and count *)
Fixpoint write (acts : list act) (count : Z) : list Z * Z :=
  match acts with
  | [] => ([], count)
  | Put t :: r => let '(u, c) := write r (count + len t) in (t ++ u, c)
  | Nested :: r => write r 0
  end.

(** printint: printer.c 150-183 *)
Definition printint_field (base : Z) (down : bool) (num field1 field2 : Z) : option (list Z) :=
  let u := (if num <? 0 then wrap64 (- num) else num) mod 2 ^ 64 in
  match printint_loop 65 base down u [] with
  | None => None
  | Some w =>
      let sign := num <? 0 in
      let j := if sign then (if len w + 1 <? field2 then field1 - field2 else field1 - (len w + 1))
               else (if len w <? field2 then field1 - field2 else field1 - len w) in
      let k := if sign then field2 - len w - 1 else field2 - len w in
      Some (spaces j ++ (if sign then [45] else []) ++ zeros k ++ w)
  end.
(** printbig: printer.c 230-272 *)
Definition printbig_field (base : Z) (down : bool) (ds : list Z) (field1 field2 : Z) : option (list Z) :=
  let sign := big_sign ds in
  let b := if sign <? 0 then big_minus ds else ds in
  match printbig_loop (64 * length b) base down b [] with
  | None => None
  | Some w =>
      let i := if field2 <? len w then field1 - len w else field1 - field2 in
      let i := if sign <? 0 then i - 1 else i in
      let k := if sign <? 0 then field2 - len w - 1 else field2 - len w in
      Some (spaces i ++ (if sign <? 0 then [45] else []) ++ zeros k ++ w)
  end.

(** what a directive does: text and remaining arguments *)
Inductive effect := Out (t : list Z) (args : list arg) | Bad (e : failure) | Ub.
(** printnum: printer.c 274-285 *)
Definition printnum (base : Z) (down : bool) (a : arg) (p0 p1 : Z) (args : list arg) : effect :=
  match int a with
  | Some o =>
      match (match o with Imm _ => printint_field base down (intval o) p0 p1 | Big ds => printbig_field base down ds p0 p1 end) with
      | Some t => Out t args
      | None => Ub
      end
  | None => match num_text a with Some t => Out t args | None => Bad NoNumber end
  end.
(** [buf] has 256 bytes, one for the final zero *)
Definition sprintf (t : list Z) (args : list arg) : effect := if len t <? 256 then Out t args else Ub.
(** line 542: zeros at the end are cut, but for one after the point; [t] is reversed *)
Fixpoint cut_zeros (t : list Z) : list Z :=
  match t with
  | c :: ((d :: _ :: _) as r) => if (c =? 48) && negb (d =? 46) then cut_zeros r else t
  | _ => t
  end.
(** lines 492-554 *)
Definition directive (down : bool) (c p0 p1 : Z) (args : list arg) : effect :=
  let next := fun (k : arg -> list arg -> effect) => match args with [] => Bad MismatchArg | a :: r => k a r end in
  if c =? 65 then next (fun a r => let '(t, n) := write (princ a) 0 in Out (t ++ spaces (p0 - n)) r)
  else if c =? 83 then next (fun a r => let '(t, n) := write (prin1 a) 0 in Out (t ++ spaces (p0 - n)) r)
  else if c =? 68 then next (fun a r => printnum 10 down a p0 p1 r)
  else if c =? 88 then next (fun a r => printnum 16 down a p0 p1 r)
  else if c =? 79 then next (fun a r => printnum 8 down a p0 p1 r)
  else if c =? 67 then
    next (fun a r => match match int a with Some o => ckintval o | None => None end with Some z => Out [z mod 256] r | None => Bad NoInteger end)
  else if c =? 70 then next (fun a r => match flt a with Some x => sprintf (fixed x p0 p1) r | None => Bad NoNumber end)
  else if c =? 69 then next (fun a r => match flt a with Some x => sprintf (expon x p0 p1) r | None => Bad NoNumber end)
  else if c =? 71 then
    next (fun a r =>
      match flt a with
      | None => Bad NoNumber
      | Some x =>
          if zero x then Out [48; 46; 48] r
          else if extreme x then sprintf (expon x p0 p1) r
          else match sprintf (fixed x p0 p1) r with Out t r => Out (rev (cut_zeros (rev t))) r | e => e end
      end)
  else if (c =? 37) || (c =? 38) then Out (repeat 10 (Z.to_nat (p0 + 1))) args
  else if c =? 126 then Out [126] args
  else if c =? 84 then Out [9] args
  else Out [] args.

Definition isdigit (c : Z) : bool := (48 <=? c) && (c <=? 57).
Definition upper (c : Z) : Z := if (97 <=? c) && (c <=? 122) then c - 32 else c.
(** conversion of a long to an int *)
Definition wrap32 (z : Z) : Z := (z + 2 ^ 31) mod 2 ^ 32 - 2 ^ 31.
(** lines 479-485: the parameters, as one loop over the characters.  [cur] is the number being read, if any.  [param] has ten
    entries. *)
Inductive parsed := Params (ps : list Z) (c : Z) (rest : list Z) | Ended | Overflow.
Fixpoint read_params (s : list Z) (cur : option Z) (ps : list Z) : parsed :=
  match s with
  | [] => Ended
  | c :: r =>
      if isdigit c then
        match cur with
        | None => if 10 <=? len ps then Overflow else read_params r (Some (c - 48)) ps
        | Some v => if 2 ^ 31 <=? v * 10 + (c - 48) then Overflow else read_params r (Some (v * 10 + (c - 48))) ps
        end
      else
        match cur with
        | None => Params ps c r
        | Some v => if c =? 44 then read_params r None (ps ++ [v]) else Params (ps ++ [v]) c r
        end
  end.
(** lines 474-557 *)
Fixpoint format_loop (fuel : nat) (down : bool) (s : list Z) (args : list arg) (out : list Z) : result :=
  match fuel with
  | O => Undefined
  | S fuel =>
      match s with
      | [] => Done out
      | c :: s =>
          if c =? 126 then
            let go := fun (ps : list Z) (c : Z) (s : list Z) (args : list arg) =>
              match directive down c (nth 0 ps 0) (nth 1 ps 1) args with
              | Out t args => format_loop fuel down s args (out ++ t)
              | Bad e => Fail e out
              | Ub => Undefined
              end in
            match read_params s None [] with
            | Ended => Fail FormatString out
            | Overflow => Undefined
            | Params ps c s =>
                if upper c =? 86 then
                  match args with
                  | [] => Fail MismatchArg out
                  | a :: args =>
                      match match int a with Some o => ckintval o | None => None end with
                      | None => Fail NoInteger out
                      | Some z =>
                          if 10 <=? len ps then Undefined
                          else match s with
                               | [] => Fail FormatString out
                               | c :: s => go (ps ++ [wrap32 z]) (upper c) s args
                               end
                      end
                  end
                else go ps (upper c) s args
            end
          else format_loop fuel down s args (out ++ [c])
      end
  end.
(** (format nil control args...) and what (format stream control args...) writes *)
Definition XFORMAT (down : bool) (control : list Z) (args : list arg) : result :=
  format_loop (S (length control)) down control args [].
