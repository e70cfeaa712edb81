(** Model of stream buffering: output (lisp/c/eusstream.c:157-250), input (70-152), read-line, read-char,
    unread-char and peek-char (lisp/c/lispio.c:212-296).  Bytes are integers; the buffer of an output stream
    is represented by its filled part [buf] and its size [cap], so [count] is the length of [buf].

    Not modelled: message queues, the :flush and :fill messages of other stream classes, foreign buffers,
    C int overflow of the counters. *)
From Coq Require Export ZArith List Lia Bool.
Export ListNotations.
Open Scope Z_scope.

(** * Output *)

Inductive kind := File | Str.       (* file-stream (fd), string stream *)

Record ostream := { knd : kind; cap : Z; buf : list Z; sent : list Z (* bytes the file has received *) }.

Definition count (s : ostream) : Z := Z.of_nat (length (buf s)).

(** The operating system's answer to one write(fd, chars, count): all bytes, the first n bytes, or -1. *)
Inductive wans := WAll | WShort (n : nat) | WFail.

Inductive ores :=
| ODone (ok : bool) (s : ostream) (os : list wans)   (* ok = false: the function returns -1 *)
| OLong                                              (* error E_LONGSTRING *)
| OUndef                                             (* write outside the buffer *)
| OLoop.                                             (* endless loop *)

(** eusstream.c:157-208 [flushstream].  A system call with no answer left accepts everything. *)
Definition flushstream (s : ostream) (os : list wans) : ores :=
  match buf s with
  | [] => ODone true s os
  | _ =>
      match knd s with
      | File =>
          match os with
          | WFail :: os' => ODone false s os'
          | WShort n :: os' =>
              ODone true {| knd := File; cap := cap s; buf := []; sent := sent s ++ firstn n (buf s) |} os'
          | WAll :: os' => ODone true {| knd := File; cap := cap s; buf := []; sent := sent s ++ buf s |} os'
          | [] => ODone true {| knd := File; cap := cap s; buf := []; sent := sent s ++ buf s |} []
          end
      | Str =>
          if cap s =? count s then
            if 1000000 <=? cap s then OLong
            else ODone true {| knd := Str; cap := count s * 2; buf := buf s; sent := sent s |} os
          else ODone true s os
      end
  end.

Definition addbytes (s : ostream) (l : list Z) : ostream :=
  {| knd := knd s; cap := cap s; buf := buf s ++ l; sent := sent s |}.

(** eusstream.c:210-223 [writech] *)
Definition writech (s : ostream) (os : list wans) (c : Z) : ores :=
  match (if cap s <=? count s then flushstream s os else ODone true s os) with
  | ODone true s1 os1 => if count s1 <? cap s1 then ODone true (addbytes s1 [c]) os1 else OUndef
  | o => o
  end.

(** eusstream.c:225-250 [writestr]: [mes] is what is still to be written. *)
Fixpoint writestr_loop (fuel : nat) (s : ostream) (os : list wans) (mes : list Z) : ores :=
  match mes with
  | [] => ODone true s os
  | _ =>
      match fuel with
      | O => OLoop
      | S f =>
          match (if cap s <=? count s then flushstream s os else ODone true s os) with
          | ODone true s1 os1 =>
              let n := Z.to_nat (Z.min (Z.of_nat (length mes)) (cap s1 - count s1)) in
              writestr_loop f (addbytes s1 (firstn n mes)) os1 (skipn n mes)
          | o => o
          end
      end
  end.
(** Every iteration but one that follows a useless flush copies a byte, so the length is enough fuel. *)
Definition writestr (s : ostream) (os : list wans) (mes : list Z) : ores := writestr_loop (length mes) s os mes.

Inductive oop := OCh (c : Z) | OStr (l : list Z) | OFlush.

Definition ostep (s : ostream) (os : list wans) (o : oop) : ores :=
  match o with
  | OCh c => writech s os c
  | OStr l => writestr s os l
  | OFlush => flushstream s os
  end.

(** A program that writes, ignoring the results -1 as print and princ do (printer.c). *)
Fixpoint orun (s : ostream) (os : list wans) (ops : list oop) : ores :=
  match ops with
  | [] => ODone true s os
  | o :: r => match ostep s os o with
              | ODone _ s1 os1 => orun s1 os1 r
              | e => e
              end
  end.

(** l/stream.l:191-193 make-string-output-stream; stream :init (61-69) *)
Definition string_output (size : Z) : ostream := {| knd := Str; cap := size; buf := []; sent := [] |}.
Definition file_output (size : Z) : ostream := {| knd := File; cap := size; buf := []; sent := [] |}.
(** l/stream.l:211-212 get-output-stream-string *)
Definition get_output_stream_string (s : ostream) : list Z := buf s.

(** * Input *)

(** chars, count and tail of the stream; [src] are the blocks that the next read() calls return, an empty
    block standing for the result 0.  Failed calls are repeated (eusstream.c:98-104) and do not show. *)
Record istream := { chars : list Z; icount : nat; itail : nat; src : list (list Z) }.

(** eusstream.c:114-136 [readch] with 70-112 [fillstream]; a string stream has no [src]. *)
Definition readch (s : istream) : option Z * istream :=
  if (itail s <=? icount s)%nat then
    match src s with
    | [] => (None, s)
    | [] :: r => (None, {| chars := chars s; icount := icount s; itail := itail s; src := r |})
    | blk :: r =>
        let cs := blk ++ skipn (length blk) (chars s) in
        (Some (nth 0 cs 0), {| chars := cs; icount := 1; itail := length blk; src := r |})
    end
  else (Some (nth (icount s) (chars s) 0),
        {| chars := chars s; icount := S (icount s); itail := itail s; src := src s |}).

Definition upd (l : list Z) (i : nat) (c : Z) : list Z := firstn i l ++ c :: skipn (S i) l.

(** eusstream.c:138-152 [unreadch] *)
Definition unreadch (s : istream) (c : Z) : istream :=
  match icount s with
  | O => s
  | S k => {| chars := upd (chars s) k c; icount := k; itail := itail s; src := src s |}
  end.

(** lispio.c:280-296 [PEEKCH] *)
Definition peekch (s : istream) : option Z * istream :=
  match readch s with
  | (Some c, s1) => (Some c, unreadch s1 c)
  | (None, s1) => (None, s1)
  end.

(** lispio.c:212-250 [READLINE]: [cb] backwards.  The buffer cb grows before it is full (238-248), so its
    size does not matter.  [None]: end of file before any character. *)
Definition strip_cr (cb : list Z) : list Z := match cb with 13 :: r => rev r | _ => rev cb end.
Fixpoint readline_loop (fuel : nat) (s : istream) (cb : list Z) : option (option (list Z) * istream) :=
  match fuel with
  | O => None
  | S f =>
      match readch s with
      | (Some c, s1) => if c =? 10 then Some (Some (strip_cr cb), s1) else readline_loop f s1 (c :: cb)
      | (None, s1) => match cb with
                      | [] => Some (None, s1)
                      | _ => Some (Some (strip_cr cb), s1)
                      end
      end
  end.
Definition total (s : istream) : nat := (length (chars s) + length (concat (src s)))%nat.
Definition readline (s : istream) : option (option (list Z) * istream) := readline_loop (S (total s)) s [].

Inductive iop := IRead | IUnread | IPeek | ILine.
Inductive ires := RCh (c : option Z) | RUnit | RLine (l : option (list Z)) | RStuck.

(** Programs: unread-char is applied to the character just read by read-char; elsewhere the program does
    not call it. *)
Fixpoint irun (s : istream) (last : option Z) (ops : list iop) : list ires :=
  match ops with
  | [] => []
  | IRead :: r => let '(c, s1) := readch s in RCh c :: irun s1 c r
  | IUnread :: r => match last with
                    | Some c => RUnit :: irun (unreadch s c) None r
                    | None => RUnit :: irun s None r
                    end
  | IPeek :: r => let '(c, s1) := peekch s in RCh c :: irun s1 None r
  | ILine :: r => match readline s with
                  | Some (l, s1) => RLine l :: irun s1 None r
                  | None => [RStuck]
                  end
  end.
