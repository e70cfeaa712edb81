(** The line editor and the history of the toplevel: /repo/lisp/l/history.l (all of it), list-insert and list-delete (/repo/lisp/l/common.l lines 367-381),
    the terminal control of /repo/lisp/l/tty.l lines 47-68, and substringp with string-equal (/repo/lisp/l/string.l lines 122-131, STRINGEQUAL of
    /repo/lisp/c/charstring.c lines 110-131).

    Simplifications: the terminal is one row without a right margin, every byte written takes one column (no control bytes in the text); list-insert and
    list-delete change their list in place, the editor being its only owner; the memcpy of the overlapping entries in add-history copies the old entries;
    the window update at the end of add-history is left out. *)
From Coq Require Import ZArith List Bool Arith.
Import ListNotations.
Open Scope nat_scope.

(** ** Terminal *)
Record screen := Scr { row : list nat; cur : nat }.
(** write-byte: cells not yet written are blanks *)
Definition put (b : nat) (s : screen) : screen :=
  Scr (firstn (cur s) (row s) ++ repeat 32 (cur s - length (row s)) ++ b :: skipn (S (cur s)) (row s)) (S (cur s)).
Definition cursor_pos (x : nat) (s : screen) : screen := Scr (row s) x.
Definition cursor_forward (s : screen) : screen := Scr (row s) (S (cur s)).
Definition cursor_backward (s : screen) : screen := Scr (row s) (pred (cur s)).
Definition erase_eol (s : screen) : screen := Scr (firstn (cur s) (row s)) (cur s).

(** ** List operations: common.l 367-381 *)
Definition list_insert (item pos : nat) (l : list nat) : list nat :=
  match l with
  | [] => [item]
  | _ => if length l <=? pos then l ++ [item] else if pos =? 0 then item :: l else firstn pos l ++ item :: skipn pos l
  end.
Definition list_delete (l : list nat) (n : nat) : list nat := if n =? 0 then tl l else firstn n l ++ skipn (S n) l.

(** ** Editor: history.l 22-80 *)
Fixpoint write_from (str : list nat) (i count : nat) (s : screen) : screen :=
  match count with O => s | S n => write_from str (S i) n (put (nth i str 0) s) end.
Definition refresh_line (str : list nat) (start stop : nat) (s : screen) : screen :=
  cursor_pos start (write_from str start (stop - start) (erase_eol (cursor_pos start s))).
Record edit := Edit { line : list nat; index : nat; stop : nat; scr : screen }.
Definition line_head (e : edit) : edit := Edit (line e) 0 (stop e) (cursor_pos 0 (scr e)).
Definition line_left (e : edit) : edit := Edit (line e) (pred (index e)) (stop e) (if 0 <? index e then cursor_backward (scr e) else scr e).
Definition line_right (e : edit) : edit :=
  if index e <? stop e then Edit (line e) (S (index e)) (stop e) (cursor_forward (scr e)) else e.
Definition line_delch (e : edit) : edit :=
  if index e <? stop e then
    let l := list_delete (line e) (index e) in let n := pred (stop e) in Edit l (index e) n (refresh_line l (index e) n (scr e))
  else e.
Definition line_delch_previous (e : edit) : edit :=
  if 0 <? index e then
    let i := pred (index e) in let l := list_delete (line e) i in let n := pred (stop e) in Edit l i n (refresh_line l i n (scr e))
  else e.
Definition line_tail (e : edit) : edit := Edit (line e) (stop e) (stop e) (cursor_pos (stop e) (scr e)).
Definition line_refresh (e : edit) : edit := Edit (line e) (stop e) (stop e) (cursor_pos (index e) (refresh_line (line e) 0 (stop e) (scr e))).
Definition line_insert (ch : nat) (e : edit) : edit :=
  let l := list_insert ch (index e) (line e) in let n := S (stop e) in
  Edit l (S (index e)) n (cursor_forward (refresh_line l (index e) n (scr e))).
Definition line_clear (e : edit) : edit := Edit [] 0 0 (erase_eol (cursor_pos 0 (scr e))).
(** the result of a key: a new state, or the value thrown to line-edit *)
Inductive keyed := Go (e : edit) | Throw (l : list nat).
(** the dispatch table: lines 76-97 *)
Definition dispatch (ch : nat) (e : edit) : keyed :=
  match ch with
  | 1 => Go (line_head e) | 2 | 8 => Go (line_left e) | 3 => Throw [] | 4 => Go (line_delch e) | 6 | 11 => Go (line_right e)
  | 7 | 18 => Go (line_refresh e) | 10 | 13 => Throw (line e) | 12 => Go (line_tail e) | 21 => Go (line_clear e)
  | 127 => Go (line_delch_previous e)
  | _ => if ch <? 32 then Go e else Go (line_insert ch e)
  end.
(** line-edit: lines 100-122.  [Waiting]: more keys are wanted; [Returned None] is nil; [Failed]: the index of the table is out of range *)
Inductive editing := Waiting (e : edit) | Returned (s : option (list nat)) | Failed.
Fixpoint keys_loop (keys : list nat) (e : edit) : editing :=
  match keys with
  | [] => Waiting e
  | ch :: r => if ch <? 128 then match dispatch ch e with Go e' => keys_loop r e' | Throw [] => Returned None | Throw _ => Returned (Some (line e)) end else Failed
  end.
Definition line_edit (l : list nat) (keys : list nat) : editing := keys_loop keys (Edit l (length l) (length l) (cursor_pos (length l) (Scr l (length l)))).

(** ** History: lines 124-162 *)
Definition entry : Type := Z * option (list nat).
Record history := His { arr : list (option entry); hindex : nat; hmax : nat; hseq : Z }.
Inductive res (A : Type) := Val (a : A) | Err.
Arguments Val {A}. Arguments Err {A}.
Definition set_nth (l : list (option entry)) (i : nat) (x : entry) : list (option entry) := firstn i l ++ Some x :: skipn (S i) l.
Definition new_history (n : nat) (seq : Z) : res history :=
  match n with O => Err | S _ => Val (His (set_nth (repeat None n) 0 (seq, None)) 0 n seq) end.
Definition add_history (h : list nat) (s : history) : history :=
  let seq := (hseq s + 1)%Z in let i := S (hindex s) in
  let '(a, i) := if hmax s <=? i then (skipn 1 (arr s) ++ skipn (length (arr s) - 1) (arr s), hmax s - 1) else (arr s, i) in
  His (set_nth a i (seq, Some h)) i (hmax s) seq.
Definition text (e : option entry) : option (list nat) := match e with Some (_, t) => t | None => None end.
(** elt and aref of the array: an index out of range is an error *)
Definition elt (a : list (option entry)) (i : Z) : res (option entry) :=
  if (i <? 0)%Z then Err else match nth_error a (Z.to_nat i) with Some x => Val x | None => Err end.
Definition get_history (s : history) (n : Z) : res (option (list nat)) :=
  if (n <=? 0)%Z then match elt (arr s) (Z.of_nat (hindex s) + n - 1) with Val e => Val (text e) | Err => Err end
  else match elt (arr s) 1 with
       | Val (Some (q, _)) =>
           match elt (arr s) (Z.min (Z.of_nat (hindex s)) (Z.max 0 (n - q - -1))) with Val e => Val (text e) | Err => Err end
       | _ => Err
       end.
Definition upcase (c : nat) : nat := if (97 <=? c) && (c <=? 122) then c - 32 else c.
Fixpoint equal_chars (a b : list nat) : bool :=
  match a, b with [], [] => true | x :: a, y :: b => (upcase x =? upcase y) && equal_chars a b | _, _ => false end.
Fixpoint substring_loop (sub str : list nat) (j count : nat) : bool :=
  match count with O => false | S n => if equal_chars sub (firstn (length sub) (skipn j str)) then true else substring_loop sub str (S j) n end.
(** j runs from 0 to the difference of the lengths *)
Definition substringp (sub str : list nat) : bool := substring_loop sub str 0 (S (length str) - length sub).
(** (string nil) is "NIL" *)
Definition string_of (t : option (list nat)) : list nat := match t with Some s => s | None => [78; 73; 76] end.
Fixpoint search_loop (a : list (option entry)) (pattern : list nat) (i : nat) : option (list nat) :=
  match i with
  | O => None
  | S n => let his := text (nth i a None) in if substringp pattern (string_of his) then his else search_loop a pattern n
  end.
Definition get_history_pattern (s : history) (pattern : list nat) : option (list nat) := search_loop (arr s) pattern (hindex s - 1).
